(** * Proofs for C76: the benchmark solvers as base solvers of MapReduce.  For all values, NaN included *)
From Coq Require Import List ZArith Reals Lia Bool Permutation.
From Verif Require Import Num Jax RSum JaxFacts DataModel MeanModel MeanSpec GreedySpec GreedyModel CholModel CholSpec MetricModel
  MapReduceModel MapReduceSpec MapReduceProofs3 KTModel KTSpec KTProofs KTProofs2 KernelModel ScoreModel ThinModel BenchModel InvProofs.
Import ListNotations.
Open Scope nat_scope.

Section Sized.
  Context {V : Type} (O : FOps V) {P Y K : Type} (p0 : P) (y0 : Y).
  Notation data := (Data P Y V).
  Notation cs := (Coresubset P Y V).
  Notation wfd := MapReduceSpec.wfd.

  Lemma argbest_lt (better : V -> V -> bool) l : forall i bi bv, bi < i -> argbest better l i bi bv < i + length l.
  Proof.
    induction l as [|a l IH]; intros i bi bv H; cbn [argbest length]; [lia|].
    destruct (better a bv); [specialize (IH (S i) i a)|specialize (IH (S i) bi bv)]; lia.
  Qed.
  Lemma argmin_lt l : l <> [] -> argmin O l < length l.
  Proof.
    intro H. destruct l as [|a l]; [congruence|]. unfold argmin, argb. cbn [length].
    pose proof (argbest_lt (lt_nan O) l 1 0 a). lia.
  Qed.
  Lemma mean_scalar_ok k (x y : data) bs : 0 < d_len x -> 0 < d_len y -> exists v, mean_scalar O p0 y0 k x y bs = Ok v.
  Proof.
    intros Hx Hy. unfold mean_scalar, compute_mean.
    repeat (match goal with |- context [block_convert O p0 y0 ?a ?b] => destruct (block_convert_ok O p0 y0 a b) as [[? ?] ->]; auto; cbn [bind] end).
    destruct (block_scan _ _ _ _). cbn [bind]. eauto.
  Qed.
  Lemma mmd_ok k (x y : data) bs : 0 < d_len x -> 0 < d_len y -> exists v, mmd_compute O p0 y0 k x y bs = Ok v.
  Proof.
    intros Hx Hy. unfold mmd_compute.
    repeat (match goal with |- context [mean_scalar O p0 y0 k ?a ?b ?c] => destruct (mean_scalar_ok k a b c) as [? ->]; auto; cbn [bind] end).
    eauto.
  Qed.
  Lemma mapM_ok {A B} (f : A -> result B) l : (forall a, In a l -> exists b, f a = Ok b) -> exists r, mapM f l = Ok r /\ length r = length l.
  Proof.
    induction l as [|a l IH]; intro H; cbn [mapM]; [eauto|].
    destruct (H a (or_introl eq_refl)) as [b0 ->]. destruct IH as (r & -> & L); [intros; apply H; now right|].
    cbn [bind]. eexists. split; [reflexivity|]. cbn. now rewrite L.
  Qed.

  Lemma herding_refine_sized h ord (c : cs) st : d_y (c_pre c) = None -> 0 < d_len (c_pre c) -> 1 <= h_size h -> length (c_idx c) <= h_size h ->
    exists c' g, herding_refine O p0 y0 h ord c st = Ok (c', g) /\
      length (c_idx c') = h_size h /\ length (c_w c') = h_size h /\ c_pre c' = c_pre c.
  Proof.
    intros Hy Hn Hm Hc. unfold herding_refine.
    assert (Hg : exists g, match st with Some g => Ok g | None => do m <- gramian_row_mean O p0 y0 (h_kernel h) (c_pre c) (h_bs h);
      match m with MVec g => Ok g | MScalar _ => Err ShapeError end end = Ok g).
    { destruct st as [g|]; [eauto|]. unfold gramian_row_mean.
      destruct (compute_mean_vec_ok O p0 y0 (h_kernel h) (c_pre c) (c_pre c) Axis0 (h_bs h)) as [l ->]; [discriminate|lia|lia|]. cbn [bind]. eauto. }
    destruct Hg as [g ->]. cbn [bind].
    destruct (greedy_selection_sized O p0 y0 c (herding_select O (h_mode h) g) (h_size h) (h_kernel h) (h_unique h) (h_bs h) ord)
      as (c' & -> & A & B & C); auto. cbn [bind]. exists c', g. auto.
  Qed.
  Lemma kt_sized (s : kthin V P K) : 1 <= kt_size s -> choice_ok (kt_choice s) ->
    (forall n size, 1 <= size <= n -> size * 2 ^ kt_depth s n size <= n) -> sized false (kt_size s) (kt_reduce O p0 y0 s).
  Proof.
    intros H1 H2 H3 d Hw Hy Hn. unfold is_sup in Hy. destruct (d_y d) eqn:Ey; [discriminate|]. clear Hy.
    unfold kt_reduce. rewrite (proj2 (Nat.ltb_ge _ _)) by assumption. unfold kt_candidates.
    specialize (H3 (d_len d) (kt_size s) (conj H1 Hn)). set (m := kt_depth s (d_len d) (kt_size s)) in *. cbv zeta.
    destruct (partition_ok O p0 y0 s d (kt_size s) m H3) as (parts & Ep & Q & cl & M & S). rewrite Ep. cbn [bind].
    unfold baseline, random_reduce. cbn [rs_weighted rs_choice rs_size rs_unique negb].
    destruct (H2 (d_len d) (kt_size s) None false) as [_ C].
    destruct C as (base & Eb & Lb & Rb & Nb); [lia|]. rewrite Eb. cbn [bind]. unfold cs_init at 1.
    set (cb := mkCS _ _ _).
    assert (Lp : d_len (points O p0 y0 cb) = kt_size s).
    { unfold points, d_len, d_getitem, cb. cbn [d_x c_idx c_pre]. now rewrite gather_length, map_length. }
    rewrite Lp, (proj2 (Nat.ltb_ge _ _)) by assumption. cbn [bind].
    assert (A : forall c, In c (parts ++ [cb]) -> length (c_idx c) = kt_size s /\ c_pre c = d).
    { intros c Hc. apply in_app_iff in Hc as [Hc|[<-|[]]]; [|split; [cbn [cb c_idx]; now rewrite map_length|reflexivity]].
      split; [|auto]. apply (in_map c_idx) in Hc. rewrite M in Hc. apply in_map_iff in Hc as (l & <- & I). rewrite map_length. now apply S. }
    unfold kt_choose.
    assert (SL : same_lengths (parts ++ [cb]) = true).
    { destruct (parts ++ [cb]) as [|c t]; [reflexivity|]. cbn [same_lengths]. apply forallb_forall. intros c' Hc'.
      apply Nat.eqb_eq. rewrite (proj1 (A c (or_introl eq_refl))). apply A. now right. }
    rewrite SL. cbn [negb].
    match goal with |- context [mapM ?f _] => destruct (mapM_ok f (parts ++ [cb])) as (mm & -> & LM) end.
    { intros c Hc. apply mmd_ok; [|lia]. destruct (A c Hc) as [A1 A2]. unfold as_data, d_len, points, d_getitem. cbn [d_x].
      rewrite gather_length. lia. }
    cbn [bind].
    assert (LB : argmin O mm < length (parts ++ [cb])).
    { rewrite <- LM. apply argmin_lt. intro Z. rewrite Z in LM. rewrite app_length in LM. cbn in LM. lia. }
    set (best := nth _ _ _).
    assert (Hbest : length best = kt_size s).
    { unfold best. rewrite (nth_indep _ [] (c_idx cb)) by now rewrite map_length. rewrite map_nth. apply A. now apply nth_In. }
    unfold cs_init. set (c0 := mkCS best _ d).
    assert (L0 : d_len (points O p0 y0 c0) = kt_size s).
    { unfold points, d_len, d_getitem, c0. cbn [d_x c_idx c_pre]. now rewrite gather_length. }
    rewrite L0, (proj2 (Nat.ltb_ge _ _)) by assumption. cbn [bind]. unfold kt_refine.
    destruct (herding_refine_sized (mkHerding (kt_size s) (kt_kernel s) true (BOne None) Greedy) (kt_ord s (kt_size s)) c0 None)
      as (c' & g & -> & B1 & B2 & B3); cbn [c0 c_pre h_size c_idx]; auto; [lia|lia|].
    cbn [bind fst]. exists c'. auto.
  Qed.
  Lemma iterative_sized (ex : V -> V) (fold_in : K -> nat -> K) choice (s : @iterative_herding V P K) ords : 1 <= it_size s -> 
    sized (P := P) (Y := Y) false (it_size s) (fun d => do r <- iterative_reduce O p0 y0 ex fold_in choice s ords d None; Ok (fst r)).
  Proof.
    intros Hm d Hw Hs Hn. unfold is_sup in Hs. destruct (d_y d) eqn:Ey; [discriminate|].
    unfold iterative_reduce, herding_reduce_iterative. cbn [h_size h_kernel h_bs h_unique].
    rewrite initial_ok by assumption. cbn [bind c_pre]. unfold gramian_row_mean.
    destruct (compute_mean_vec_ok O p0 y0 (it_kernel s) d d Axis0 (it_bs s)) as [l ->]; [discriminate|lia|lia|]. cbn [bind].
    set (F := fun i r => _). set (c0 := mkCS _ _ d).
    assert (R : forall n, exists c, fori n F (Ok c0) = Ok c /\ length (c_idx c) = it_size s /\ length (c_w c) = it_size s /\ c_pre c = d).
    { induction n as [|n IH].
      - exists c0. cbn [c0 c_idx c_w c_pre]. rewrite !repeat_length. auto.
      - destruct IH as (c & Ec & A1 & A2 & A3). rewrite fori_S, Ec. unfold F at 1. cbn [bind].
        match goal with |- context [herding_refine O p0 y0 ?h ?o c ?st] =>
          destruct (herding_refine_sized h o c st) as (c' & g & -> & B1 & B2 & B3) end; cbn [h_size] in *; rewrite ?A3; auto; try lia.
        cbn [bind]. exists c'. rewrite B3. auto. }
    destruct (R (it_iterations s)) as (c & -> & A). cbn [bind fst]. exists c. auto.
  Qed.

  (** the coreset refers to the data it was given *)
  Lemma herding_reduce_pre h ord (d : data) st c g : herding_reduce O p0 y0 h ord d st = Ok (c, g) -> c_pre c = d.
  Proof.
    unfold herding_reduce, initial_coresubset. destruct (cs_init O p0 y0 _ (AData d)) as [c0|] eqn:E0; [|discriminate].
    apply cs_init_pre in E0. subst c0. cbn [bind]. intro H. apply (herding_refine_pre O (fun x : P => x) p0 p0) in H. apply H.
  Qed.
  Lemma iterative_pre h modes ords (d : data) st n c g : herding_reduce_iterative O p0 y0 h modes ords d st n = Ok (c, g) -> c_pre c = d.
  Proof.
    unfold herding_reduce_iterative, initial_coresubset. destruct (cs_init O p0 y0 _ (AData d)) as [c0|] eqn:E0; [|discriminate].
    apply cs_init_pre in E0. cbn [bind]. destruct (match st with Some _ => _ | None => _ end) as [gr|]; [|discriminate]. cbn [bind].
    set (F := fun i r => _).
    assert (R : forall n c, fori n F (Ok c0) = Ok c -> c_pre c = d).
    { induction n0 as [|m IH]; intros c1.
      - intro E. injection E as <-. now subst c0.
      - rewrite fori_S. unfold F at 1. destruct (fori m F (Ok c0)) as [c2|]; [|discriminate]. cbn [bind]. specialize (IH c2 eq_refl).
        destruct (herding_refine _ _ _ _ _ c2 _) as [[c3 g3]|] eqn:E; [|discriminate]. cbn [bind]. intro H. injection H as <-.
        apply (herding_refine_pre O (fun x : P => x) p0 p0) in E. destruct E as [E _]. congruence. }
    destruct (fori n F (Ok c0)) as [c1|] eqn:E; [|discriminate]. cbn [bind]. intro H. injection H as <- _. eauto.
  Qed.
  Lemma stein_reduce_pre s ord (d : data) c : stein_reduce O p0 y0 s ord d = Ok c -> c_pre c = d.
  Proof.
    unfold stein_reduce, initial_coresubset. destruct (cs_init O p0 y0 _ (AData d)) as [c0|] eqn:E0; [|discriminate].
    apply cs_init_pre in E0. subst c0. cbn [bind]. unfold stein_refine. cbn [c_pre]. destruct (unpack2 d) as [[x w]|]; [|discriminate]. cbn [bind].
    intro H. apply (greedy_selection_pre O (fun x : P => x) p0 p0) in H. apply H.
  Qed.
  Lemma kt_reduce_pre (s : kthin V P K) (d : data) c : kt_reduce O p0 y0 s d = Ok c -> c_pre c = d.
  Proof.
    unfold kt_reduce. destruct (_ <? _); [discriminate|]. destruct (kt_candidates O p0 y0 s d) as [l|]; [|discriminate]. cbn [bind].
    destruct (kt_choose O p0 y0 s l d) as [best|]; [|discriminate]. cbn [bind].
    destruct (cs_init O p0 y0 _ (AData d)) as [c0|] eqn:E0; [|discriminate]. apply cs_init_pre in E0. cbn [bind]. unfold kt_refine.
    destruct (herding_refine _ _ _ _ _ c0 _) as [[c1 g]|] eqn:E; [|discriminate]. cbn [bind fst]. intro H. injection H as <-.
    apply (herding_refine_pre O (fun x : P => x) p0 p0) in E. destruct E as [E _]. subst c0. exact E.
  Qed.
  (** MapReduce does nothing to data that fit into one leaf *)
  Lemma map_reduce_leaf (base : data -> result cs) tree leaf fuel d : 1 <= fuel -> d_len d <= leaf ->
    (forall c, base d = Ok c -> c_pre c = d) -> map_reduce O p0 y0 base tree leaf fuel d = base d.
  Proof.
    intros Hf Hl Hp. unfold map_reduce. destruct fuel; [lia|]. cbn [reduce_coreset]. rewrite (proj2 (Nat.leb_le _ _)) by assumption.
    destruct (base d) as [c|]; [|reflexivity]. cbn [bind]. specialize (Hp c eq_refl). destruct c as [i w p]. cbn [c_idx c_w c_pre] in *. now subst p.
  Qed.
  Lemma initial_too_large fill m (d : data) : d_len d < m -> initial_coresubset O p0 y0 fill m d = Err ValueError.
  Proof.
    intro H. unfold initial_coresubset, cs_init, points, d_getitem, d_len in *. cbn [d_x c_idx c_pre]. rewrite gather_length, repeat_length.
    now rewrite (proj2 (Nat.ltb_lt _ _)).
  Qed.
End Sized.
