(** * The greedy solvers are legitimate base solvers *)
From Coq Require Import List ZArith Bool Arith Reals Lia Lra Permutation.
From Verif Require Import Num Jax JaxFacts RSum DataModel MeanModel GreedyModel GreedySpec
  MapReduceModel MapReduceSpec MapReduceProofs MapReduceProofs2 PropGreedy.
Import ListNotations.
Open Scope nat_scope.

Section HerdingSized.
  Context {V : Type} (O : FOps V) {P Y : Type} (p0 : P) (y0 : Y).

  Lemma block_convert_ok (d : Data P Y V) bs : 0 < d_len d -> exists r, block_convert O p0 y0 d bs = Ok r.
  Proof.
    intros H. unfold block_convert.
    assert (L : d_len (normalize O true d) = d_len d) by reflexivity. rewrite L.
    destruct (eff_block (d_len d) bs) eqn:E; [|eexists; reflexivity].
    exfalso. unfold eff_block in E. destruct bs; lia.
  Qed.
  Lemma compute_mean_vec_ok k (x y : Data P Y V) ax bs : ax <> AxisNone -> 0 < d_len x -> 0 < d_len y ->
    exists l, compute_mean O p0 y0 k x y ax bs = Ok (MVec l).
  Proof.
    intros Ha Hx Hy. unfold compute_mean.
    destruct ax; [| |congruence];
    match goal with |- context [block_convert O p0 y0 ?a ?b] => destruct (block_convert_ok a b) as [[? ?] ->]; auto; cbn [bind] end;
    match goal with |- context [block_convert O p0 y0 ?a ?b] => destruct (block_convert_ok a b) as [[? ?] ->]; auto; cbn [bind] end;
    destruct (block_scan _ _ _ _); eexists; reflexivity.
  Qed.
  Lemma greedy_fori_length k x dw cw sel unique ord (s : gstate) n :
    length (g_idx (fori n (greedy_body O p0 k x dw cw sel unique ord) s)) = length (g_idx s).
  Proof.
    apply (fori_ind (fun _ s' => length (g_idx s') = length (g_idx s))); auto.
    intros i s' _ H. unfold greedy_body. cbn [g_idx]. now rewrite upd_length.
  Qed.
  Lemma greedy_selection_sized c sel m k unique bs ord : d_y (c_pre c) = None -> 0 < d_len (c_pre c) ->
    1 <= m -> length (c_idx c) <= m ->
    exists c', greedy_selection O p0 y0 c sel m k unique bs ord = Ok c' /\
      length (c_idx c') = m /\ length (c_w c') = m /\ c_pre c' = c_pre c.
  Proof.
    intros Hy Hn Hm Hc. unfold greedy_selection, unpack2. rewrite Hy. cbn [bind].
    match goal with |- context [compute_mean O p0 y0 k ?x ?y Axis1 bs] =>
      destruct (compute_mean_vec_ok k x y Axis1 bs) as [l ->] end.
    - discriminate.
    - exact Hn.
    - unfold points, d_getitem, d_len. cbn [d_x c_idx]. rewrite gather_length, app_length, repeat_length. lia.
    - cbn [bind]. eexists. split; [reflexivity|]. cbn [c_idx c_w c_pre]. rewrite repeat_length, firstn_length, greedy_fori_length.
      cbn [g_idx]. rewrite app_length, repeat_length. split; [lia|]. split; [lia|reflexivity].
  Qed.
  (** KernelHerding, in either selection mode, as the base solver of MapReduce *)
  Definition herding_base (h : herding) (ord : nat -> list nat) (d : Data P Y V) : result (Coresubset P Y V) :=
    do (c, _) <- herding_reduce O p0 y0 h ord d None; Ok c.
  Lemma initial_ok fill m (d : Data P Y V) : m <= d_len d ->
    initial_coresubset O p0 y0 fill m d = Ok (mkCS (repeat fill m) (repeat (f0 O) m) d).
  Proof.
    intros H. unfold initial_coresubset, cs_init, d_len in *. unfold points, d_getitem. cbn [c_idx c_pre d_x].
    rewrite gather_length, repeat_length.
    destruct (Nat.ltb_spec (length (d_x d)) m); [lia|]. reflexivity.
  Qed.
  Lemma herding_sized h ord : 1 <= h_size h -> sized false (h_size h) (herding_base h ord).
  Proof.
    intros Hm d Hw Hs Hn. unfold is_sup in Hs. destruct (d_y d) eqn:Ey; [discriminate|].
    unfold herding_base, herding_reduce. rewrite initial_ok by assumption. cbn [bind].
    unfold herding_refine, gramian_row_mean. cbn [c_pre].
    destruct (compute_mean_vec_ok (h_kernel h) d d Axis0 (h_bs h)) as [l ->]; [discriminate|lia|lia|]. cbn [bind].
    destruct (greedy_selection_sized (mkCS (repeat 0%Z (h_size h)) (repeat (f0 O) (h_size h)) d)
      (herding_select O (h_mode h) l) (h_size h) (h_kernel h) (h_unique h) (h_bs h) ord) as [c' [-> [A [B C]]]];
      cbn [c_pre c_idx]; auto; try lia.
    { now rewrite repeat_length. }
    cbn [bind]. exists c'. auto.
  Qed.
  Lemma stein_sized s ord : 1 <= s_size s -> sized false (s_size s) (stein_reduce O p0 y0 s ord).
  Proof.
    intros Hm d Hw Hs Hn. unfold is_sup in Hs. destruct (d_y d) eqn:Ey; [discriminate|].
    unfold stein_reduce. rewrite initial_ok by assumption. cbn [bind].
    unfold stein_refine, unpack2. cbn [c_pre c_idx]. rewrite Ey. cbn [bind].
    apply greedy_selection_sized; cbn [c_pre c_idx]; auto; try lia. now rewrite repeat_length.
  Qed.
End HerdingSized.

(** with [unique=True] KernelHerding meets [picks] *)
Lemma herding_picks {P Y} (p0 : P) (y0 : Y) (k : P -> P -> R) m bs ord : 1 <= m ->
  (forall i, Permutation (ord i) (seq 0 m)) ->
  picks m (herding_base EROps p0 y0 (mkHerding m (kE k) true bs Greedy) ord).
Proof.
  intros Hm Ho xs w HL Hw Hp.
  assert (npos w <= length w).
  { unfold npos. clear. induction w as [|a w IH]; simpl; auto. destruct (Rlt_dec 0 a); simpl; lia. }
  destruct (C17_herding_reduce P Y p0 y0 k m true bs ord xs w None) as [l [g [E [L [R N]]]]]; auto; try lia.
  { intros; discriminate. }
  cbn [option_map] in E. exists l, (repeat 1%R m).
  unfold herding_base. rewrite E. cbn [bind]. split; [rewrite map_repeat'; reflexivity|].
  split; auto. split; [apply repeat_length|]. split; [apply Forall_forall; intros v Hv; apply repeat_spec in Hv; subst; lra|].
  split; auto.
Qed.
