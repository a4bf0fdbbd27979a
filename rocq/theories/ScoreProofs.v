(** * Proofs about score matching *)
From Coq Require Import List ZArith Reals Lra Lia Bool FunctionalExtensionality.
From Coquelicot Require Import Coquelicot.
From Verif Require Import Num Jax RSum JaxFacts DataModel MeanModel MeanSpec MeanProofs DataMeanLemmas MetricModel MetricSpec MetricProofs MetricProofs2
  KernelModel KernelSpec KernelProofs2 KernelProofs3 KernelProofs4 KernelProofs5 KernelProofs7 KernelProofs8 PropKernel ApproxModel ApproxProofs ScoreModel ScoreSpec.
Import ListNotations.
Open Scope R_scope.

(** ** [compute_mean] commutes with a change of representation of the points *)
Section MeanMap.
  Context {V : Type} (O : FOps V) {P P' Y : Type} (p0 : P) (y0 : Y) (f : P -> P') (k : P' -> P' -> V).
  Notation kf := (fun a b => k (f a) (f b)).
  Definition dmap (d : Data P Y V) : Data P' Y V := mkData (map f (d_x d)) (d_w d) (d_y d).
  Definition bmap (b : list P * list V) : list P' * list V := (map f (fst b), snd b).
  Lemma combine_bmap xs ws : combine (map (map f) xs) ws = map bmap (combine xs ws).
  Proof. revert ws. induction xs; destruct ws; cbn; auto. now rewrite IHxs. Qed.
  Lemma block_convert_map d bs : block_convert O (f p0) y0 (dmap d) bs
    = match block_convert O p0 y0 d bs with Ok (b, n) => Ok (map bmap b, n) | Err e => Err e end.
  Proof.
    unfold block_convert, dmap, normalize, d_len. cbn [d_x d_w d_y]. rewrite map_length.
    destruct (eff_block (length (d_x d)) bs) as [|b]; [reflexivity|]. unfold zero_pad. cbn [d_x d_w]. do 2 f_equal.
    replace (map f (d_x d) ++ repeat (f p0) (cdiv (length (d_x d)) (S b) * S b - length (d_x d)))
      with (map f (d_x d ++ repeat p0 (cdiv (length (d_x d)) (S b) * S b - length (d_x d)))) by (rewrite map_app; f_equal; apply map_repeat).
    now rewrite map_chunks, combine_bmap.
  Qed.
  Lemma pairwise_bmap a b : pairwise k (map f a) (map f b) = pairwise kf a b.
  Proof. unfold pairwise. rewrite map_map. apply map_ext. intro. now rewrite map_map. Qed.
  Lemma slice_sums_map xb ybs acc : slice_sums O k (bmap xb) (map bmap ybs) acc = slice_sums O kf xb ybs acc.
  Proof.
    unfold slice_sums. generalize (acc, @nil (list V)) as s. induction ybs as [|yb ybs IH]; intro s; cbn [map fold_left]; [reflexivity|].
    rewrite IH. f_equal. destruct s. cbv zeta. unfold bmap. cbn [fst snd]. now rewrite pairwise_bmap.
  Qed.
  Lemma block_scan_map xbs ybs : block_scan O k (map bmap xbs) (map bmap ybs) = block_scan O kf xbs ybs.
  Proof.
    unfold block_scan. generalize (f0 O, @nil (list V)) as s. induction xbs as [|xb xbs IH]; intro s; cbn [map fold_left]; [reflexivity|].
    rewrite IH. f_equal. destruct s as [acc cols]. rewrite slice_sums_map. unfold bmap. cbn [fst]. now rewrite map_length.
  Qed.
  Lemma compute_mean_map x y ax bs : compute_mean O (f p0) y0 k (dmap x) (dmap y) ax bs = compute_mean O p0 y0 kf x y ax bs.
  Proof.
    unfold compute_mean. cbv zeta. destruct ax; rewrite !block_convert_map;
    match goal with |- context [match block_convert O p0 y0 ?d ?b with _ => _ end] => destruct (block_convert O p0 y0 d b) as [[b1 n1]|] end; cbn [bind]; try reflexivity;
    rewrite ?block_convert_map;
    match goal with |- context [match block_convert O p0 y0 ?d ?b with _ => _ end] => destruct (block_convert O p0 y0 d b) as [[b2 n2]|] end; cbn [bind]; try reflexivity;
    rewrite block_scan_map; reflexivity.
  Qed.
End MeanMap.

Section KDE.
  Variable jgrad : (list ER -> ER) -> list ER -> list ER.
  Variable keq : kern ER -> kern ER -> bool.
  Variable len : R.
  Hypothesis Hlen : 0 < len.
  Notation sc := (1 / (sqrt (2 * PI) * len)).
  Notation kR := (KSE len sc).
  Lemma sq2pi_pos : 0 < sqrt (2 * PI). Proof. apply sqrt_lt_R0. pose proof PI_RGT_0. lra. Qed.
  Lemma norm_pos : 0 < sqrt (2 * PI) * len. Proof. apply Rmult_lt_0_compat; [apply sq2pi_pos|exact Hlen]. Qed.
  Lemma sc_pos : 0 < sc. Proof. apply Rdiv_lt_0_compat; [lra|apply norm_pos]. Qed.
  Lemma kR_cf : closed_form kR. Proof. constructor. cbn. split; [exact Hlen|apply sc_pos]. Qed.

  Lemma kdm_init_fin : kdm_init EROps ERT (Fin len) = Ok (lift kR).
  Proof.
    pose proof norm_pos as N. pose proof sc_pos as S. unfold kdm_init. change (fpi ERT) with (Fin PI). rewrite fofZ_fin, fmul_fin.
    rewrite fsqrt_fin by (pose proof PI_RGT_0; lra). rewrite fmul_fin. change (f1 EROps) with (Fin 1). rewrite fdiv_fin by lra.
    change (KSE (Fin len) (Fin sc)) with (lift kR). apply C49_constructor_ranges. cbn. split; [exact Hlen|exact S].
  Qed.
  (** the score over the reals *)
  Definition ksum (X : list (list R)) (x : list R) : R := Rsum (map (fun c => kfun kR x c) X).
  Definition score_real (X : list (list R)) (x : list R) : list R :=
    map (fun j => Rsum (map (fun c => GX kR x c j) X) / INR (length X) / (ksum X x / INR (length X))) (seq 0 (length x)).
  Lemma ksum_pos X x : X <> [] -> 0 < ksum X x.
  Proof.
    intro H. unfold ksum. assert (K : forall c, 0 < kfun kR x c).
    { intro c. cbn [kfun]. apply Rmult_lt_0_compat; [apply sc_pos|apply exp_pos]. }
    destruct X as [|c X]; [contradiction|]. clear H. revert c. induction X as [|c' X IH]; intro c; cbn [map Rsum] in *.
    - pose proof (K c). lra.
    - specialize (IH c'). pose proof (K c). lra.
  Qed.
  Lemma kde_ksum X x : X <> [] -> kde len X x = ksum X x * (/ sc / (sqrt (2 * PI) * len) ^ length x / INR (length X)).
  Proof.
    intro H. pose proof norm_pos as N. pose proof sc_pos as SP. unfold kde, ksum.
    assert (N' : (sqrt (2 * PI) * len) ^ length x <> 0) by (apply pow_nonzero; lra).
    assert (IN : INR (length X) <> 0) by (destruct X; [contradiction|apply not_0_INR; discriminate]).
    replace (Rsum (map (fun c => gauss_density len c x) X)) with (/ sc / (sqrt (2 * PI) * len) ^ length x * Rsum (map (fun c => kfun kR x c) X)).
    - unfold Rdiv. ring.
    - rewrite <- Rsum_map_scal. apply Rsum_map_ext. intros c _. unfold gauss_density. cbn [kfun]. field. repeat split; try lra; try assumption.
      pose proof sq2pi_pos. lra.
  Qed.
  Lemma is_derive_Rsum {A} (F : A -> R -> R) (D : A -> R) t (l : list A) : (forall a, In a l -> is_derive (F a) t (D a)) ->
    is_derive (fun u => Rsum (map (fun a => F a u) l)) t (Rsum (map D l)).
  Proof.
    induction l as [|a l IH]; intro H; cbn [map Rsum].
    - apply is_derive_Reals, derivable_pt_lim_const.
    - apply is_derive_plus_R; [apply H; now left|apply IH; intros; apply H; now right].
  Qed.
  Lemma score_real_spec X x : X <> [] -> (forall c, In c X -> length c = length x) -> kde_score_at len X x (score_real X x).
  Proof.
    intros HX HL. pose proof norm_pos as N. pose proof sc_pos as SP.
    assert (IN : 0 < INR (length X)) by (destruct X; [contradiction|apply lt_0_INR; cbn; lia]).
    set (A := / sc / (sqrt (2 * PI) * len) ^ length x / INR (length X)).
    assert (HA : 0 < A).
    { unfold A. apply Rdiv_lt_0_compat; [|exact IN]. apply Rdiv_lt_0_compat; [now apply Rinv_0_lt_compat|now apply pow_lt]. }
    split. { rewrite kde_ksum by exact HX. apply Rmult_lt_0_compat; [now apply ksum_pos|exact HA]. }
    split; [unfold score_real; now rewrite map_length, seq_length|]. intros i Hi. unfold score_real. rewrite nth_map_seq by exact Hi.
    apply (is_derive_ext (fun t => ln (ksum X (set_coord i x t) * A))).
    { intro t. unfold A. rewrite kde_ksum by exact HX. unfold set_coord. now rewrite upd_length. }
    assert (EX : set_coord i x (nth i x 0) = x).
    { apply list_ext with 0; [apply upd_length|]. intros j Hj. unfold set_coord. rewrite nth_upd.
      destruct (Nat.eqb_spec j i) as [->|]; cbn [andb]; [|reflexivity]. destruct (i <? length x)%nat; reflexivity. }
    assert (D : is_derive (fun t => ksum X (set_coord i x t) * A) (nth i x 0) (Rsum (map (fun c => GX kR x c i) X) * A)).
    { apply (is_derive_ext (fun t => A * ksum X (set_coord i x t))); [intro; apply Rmult_comm|]. rewrite Rmult_comm. apply is_derive_scal_R.
      unfold ksum. apply (is_derive_Rsum (fun c t => kfun kR (set_coord i x t) c)). intros c Hc.
      apply (kernel_derivatives kR x c i); [symmetry; now apply HL|exact Hi|apply kR_cf|exact I]. }
    eapply is_derive_eq.
    - apply (is_derive_comp_R ln); [|exact D]. cbv beta. rewrite EX. apply is_derive_Reals. apply derivable_pt_lim_ln.
      apply Rmult_lt_0_compat; [now apply ksum_pos|exact HA].
    - pose proof (ksum_pos X x HX). field. repeat split; lra.
  Qed.
  (** ** the model computes it *)
  Notation FF := (map (map Fin)).
  Lemma se_evals x c : length x = length c -> evals (se_meth EROps ERT (Fin len) (Fin sc)) kR x c.
  Proof. intro L. now apply ev_se. Qed.
  Lemma mean_rows_fin d (rows : list (list R)) : rows <> [] -> (forall r, In r rows -> length r = d) ->
    mean_rows EROps (FF rows) = map Fin (map (fun j => Rsum (map (fun r => nth j r 0) rows) / INR (length rows)) (seq 0 d)).
  Proof.
    intros H L. unfold mean_rows. replace (length (hd [] (FF rows))) with d.
    2:{ destruct rows as [|r rows]; [contradiction|]. cbn. rewrite map_length. symmetry. apply L. now left. }
    rewrite map_map. apply map_ext_in. intros j Hj. apply in_seq in Hj. rewrite map_length. unfold mcol. rewrite map_map.
    rewrite (map_ext _ (fun r => Fin (nth j r 0))) by (intro r; change (f0 EROps) with (Fin 0); apply (map_nth (@Fin R))).
    rewrite <- (map_map (fun r => nth j r 0) Fin). rewrite fsum_fin, fofZ_fin. rewrite <- INR_IZR_INZ. apply fdiv_fin.
    destruct rows; [contradiction|apply not_0_INR; discriminate].
  Qed.
  Lemma kdm_rows X xs : X <> [] -> xs <> [] -> (forall c x, In c X -> In x xs -> length c = length x) ->
    (do m <- compute_mean EROps [] tt (fun a b => unsc EROps (m_val (methods EROps ERT jgrad keq (lift kR)) a b))
              (as_data EROps (FF xs)) (as_data EROps (FF X)) Axis1 (BOne None); vec_of m)
    = Ok (map Fin (map (fun x => ksum X x / INR (length X)) xs)) /\
    map (fun row => mean_rows EROps (map unvec row)) (k_grad_x EROps ERT jgrad keq (lift kR) (IPoints (FF xs)) (IPoints (FF X)))
    = FF (map (fun x => map (fun j => Rsum (map (fun c => GX kR x c j) X) / INR (length X)) (seq 0 (length x))) xs).
  Proof.
    intros HX Hxs HL. split.
    - change (@nil ER) with (map (@Fin R) []).
      replace (as_data EROps (FF xs)) with (dmap (Y:=unit) (map (@Fin R)) (as_data EROps xs)) by (unfold as_data, dmap; cbn; now rewrite map_length).
      replace (as_data EROps (FF X)) with (dmap (Y:=unit) (map (@Fin R)) (as_data EROps X)) by (unfold as_data, dmap; cbn; now rewrite map_length).
      rewrite compute_mean_map.
      replace (fun a b => unsc EROps (m_val (methods EROps ERT jgrad keq (lift kR)) (map Fin a) (map Fin b))) with (fun a b => Fin (kfun kR a b)).
      2:{ extensionality a. extensionality b. change (methods EROps ERT jgrad keq (lift kR)) with (methods EROps ERT jgrad (fun _ _ => false) (lift kR)).
          rewrite kernel_value; [reflexivity|discriminate|]. cbn. split; [split; [exact Hlen|apply sc_pos]|exact I]. }
      rewrite !as_data_fin. rewrite column_mean_spec; try assumption; try (now rewrite repeat_length).
      2:{ rewrite Rsum_repeat. destruct X; [contradiction|]. rewrite Rmult_1_r. apply not_0_INR. discriminate. }
      cbn [bind vec_of]. f_equal. rewrite map_map. apply map_ext. intro x. f_equal. rewrite wavg_units by exact HX. reflexivity.
    - unfold k_grad_x, pairwise, atleast_2d. rewrite !map_map. apply map_ext_in. intros x Hx. rewrite !map_map.
      rewrite (map_ext_in _ (fun c => map Fin (map (GX kR x c) (seq 0 (length x))))).
      2:{ intros c Hc. destruct (se_evals x c) as (_ & E & _); [symmetry; now apply HL|]. cbn [lift methods]. rewrite E. reflexivity. }
      rewrite <- (map_map (fun c => map (GX kR x c) (seq 0 (length x))) (map Fin)). rewrite (mean_rows_fin (length x)).
      + rewrite map_map. apply map_ext_in. intros j Hj. apply in_seq in Hj. f_equal. rewrite map_map, map_length. f_equal. apply Rsum_map_ext. intros c _.
        now rewrite nth_map_seq by lia.
      + destruct X; [contradiction|discriminate].
      + intros r Hr. apply in_map_iff in Hr as (c & <- & _). now rewrite map_length, seq_length.
  Qed.
  Lemma kdm_result X xs : X <> [] -> xs <> [] -> (forall c x, In c X -> In x xs -> length c = length x) ->
    map2 (fun g m => map (fun v => fdiv EROps v m) g)
      (FF (map (fun x => map (fun j => Rsum (map (fun c => GX kR x c j) X) / INR (length X)) (seq 0 (length x))) xs))
      (map Fin (map (fun x => ksum X x / INR (length X)) xs))
    = FF (map (score_real X) xs).
  Proof.
    intros HX Hxs HL. rewrite !map_map. rewrite map2_map_same. apply map_ext. intro x. unfold score_real. rewrite !map_map. apply map_ext. intro j.
    apply fdiv_fin. pose proof (ksum_pos X x HX). assert (0 < INR (length X)) by (destruct X; [contradiction|apply lt_0_INR; cbn; lia]).
    apply Rgt_not_eq. now apply Rdiv_lt_0_compat.
  Qed.
  Lemma kdm_points X xs : X <> [] -> xs <> [] -> (forall c x, In c X -> In x xs -> length c = length x) ->
    kdm_score EROps ERT jgrad keq (lift kR) (FF X) (IPoints (FF xs)) = Ok (OMat (FF (map (score_real X) xs))).
  Proof.
    intros HX Hxs HL. destruct (kdm_rows X xs HX Hxs HL) as [E1 E2]. unfold kdm_score. cbn [atleast_2d].
    destruct (compute_mean _ _ _ _ _ _ _ _) as [m|e]; [|discriminate]. cbn [bind] in E1 |- *. rewrite E1. cbn [bind]. rewrite E2. now rewrite kdm_result.
  Qed.
  Lemma kdm_point X x : X <> [] -> (forall c, In c X -> length c = length x) ->
    kdm_score EROps ERT jgrad keq (lift kR) (FF X) (IPoint (map Fin x)) = Ok (OVec (map Fin (score_real X x))).
  Proof.
    intros HX HL. assert (H : forall c x', In c X -> In x' [x] -> length c = length x') by (intros c x' Hc [<-|[]]; now apply HL).
    assert (N : [x] <> []) by discriminate.
    destruct (kdm_rows X [x] HX N H) as [E1 E2]. unfold kdm_score. cbn [atleast_2d]. change [map Fin x] with (FF [x]).
    destruct (compute_mean _ _ _ _ _ _ _ _) as [m|e]; [|discriminate]. cbn [bind] in E1 |- *. rewrite E1. cbn [bind]. rewrite E2. now rewrite kdm_result.
  Qed.
  Lemma kdm_scalar X v : X <> [] -> (forall c, In c X -> length c = 1%nat) ->
    kdm_score EROps ERT jgrad keq (lift kR) (FF X) (IScalar (Fin v)) = Ok (OMat [map Fin (score_real X [v])]).
  Proof.
    intros HX HL. assert (H : forall c x', In c X -> In x' [[v]] -> length c = length x') by (intros c x' Hc [<-|[]]; now apply HL).
    assert (N : [[v]] <> []) by discriminate.
    destruct (kdm_rows X [[v]] HX N H) as [E1 E2]. unfold kdm_score. cbn [atleast_2d]. change [[Fin v]] with (FF [[v]]).
    destruct (compute_mean _ _ _ _ _ _ _ _) as [m|e]; [|discriminate]. cbn [bind] in E1 |- *. rewrite E1. cbn [bind]. rewrite E2. now rewrite kdm_result.
  Qed.
  Lemma kdm_match_fin X x : X <> [] -> (forall c, In c X -> length c = length x) ->
    kdm_match EROps ERT jgrad keq (lift kR) (FF X) (map Fin x) = map Fin (score_real X x).
  Proof. intros HX HL. unfold kdm_match. now rewrite kdm_point. Qed.
End KDE.
