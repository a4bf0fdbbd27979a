(** * Kernel thinning does not depend on the scale of its square root kernel *)
From Coq Require Import List ZArith Reals Lra Lia Bool.
From Verif Require Import Num Jax JaxFacts RSum DataModel MeanModel GreedyModel MetricModel CholModel MapReduceModel KTModel
  KernelProofs.
Import ListNotations.

Open Scope R_scope.
(** multiplication by a positive number, special values included *)
Definition sc (c : R) (v : ER) : ER := match v with Fin x => Fin (c * x) | _ => v end.
Lemma sc_mul c v : 0 < c -> fmul EROps (Fin c) v = sc c v.
Proof.
  intro H. destruct v as [x| | |]; cbn; auto.
  - unfold inf_times. rewrite nsign_R. destruct (Rlt_dec 0 c); [reflexivity|lra].
  - unfold inf_times. rewrite nsign_R. destruct (Rlt_dec 0 c); [reflexivity|lra].
Qed.
Lemma sc_1 v : sc 1 v = v. Proof. destruct v; cbn; auto. f_equal. ring. Qed.
Lemma sign_scale c x : 0 < c -> nsign ROps (c * x) = nsign ROps x.
Proof.
  intro H. rewrite !nsign_R.
  destruct (Rlt_dec 0 (c * x)), (Rlt_dec 0 x); auto; try (exfalso; nra).
  destruct (Rlt_dec (c * x) 0), (Rlt_dec x 0); auto; exfalso; nra.
Qed.
Lemma sc_add c a b : fadd EROps (sc c a) (sc c b) = sc c (fadd EROps a b).
Proof. destruct a, b; cbn; auto. f_equal. ring. Qed.
Lemma sc_sub c a b : fsub EROps (sc c a) (sc c b) = sc c (fsub EROps a b).
Proof. destruct a, b; cbn; auto. f_equal. ring. Qed.
Lemma sc_times c d a b : 0 < c -> 0 < d -> fmul EROps (sc c a) (sc d b) = sc (c * d) (fmul EROps a b).
Proof.
  intros Hc Hd. assert (I : forall p e x, 0 < e -> inf_times ROps p (e * x) = sc (c * d) (inf_times ROps p x)).
  { intros p e x He. unfold inf_times. rewrite sign_scale by exact He. destruct (nsign ROps x) as [s|]; [destruct (Bool.eqb s p)|]; reflexivity. }
  destruct a, b; cbn; auto. f_equal. ring.
Qed.
Lemma sc_div c d a b : 0 < c -> 0 < d -> fdiv EROps (sc c a) (sc d b) = sc (c / d) (fdiv EROps a b).
Proof.
  intros Hc Hd. destruct a as [x| | |], b as [y| | |]; cbn; auto; rewrite ?sign_scale by assumption; auto.
  - pose proof (nsign_R y) as E. destruct (nsign ROps y) as [s|].
    + cbn. f_equal. assert (y <> 0) by (intros ->; destruct (Rlt_dec 0 0); [lra|discriminate]). field. split; lra.
    + destruct (nsign ROps x) as [[]|]; reflexivity.
  - f_equal. ring.
  - f_equal. ring.
  - destruct (nsign ROps y) as [[]|]; reflexivity.
  - destruct (nsign ROps y) as [[]|]; reflexivity.
Qed.
Lemma sc_nan c a : fisnan EROps (sc c a) = fisnan EROps a. Proof. destruct a; reflexivity. Qed.
Lemma sc_ltb c a b : 0 < c -> fltb EROps (sc c a) (sc c b) = fltb EROps a b.
Proof.
  intro H. destruct a as [x| | |], b as [y| | |]; cbn; auto. unfold nltb, nleb, ROps, Rleb. f_equal.
  destruct (Rle_dec (c * y) (c * x)), (Rle_dec y x); auto; exfalso; nra.
Qed.
Lemma sc_max c a b : 0 < c -> fmax EROps (sc c a) (sc c b) = sc c (fmax EROps a b).
Proof.
  intro H. unfold fmax. rewrite !sc_nan, sc_ltb by exact H.
  destruct (fisnan EROps a); auto. destruct (fisnan EROps b); auto. destruct (fltb EROps a b); auto.
Qed.
Lemma sc_zero c : sc c (f0 EROps) = f0 EROps. Proof. cbn. f_equal. ring. Qed.
Lemma sc_sqrt c a : 0 < c -> fsqrt EROps (sc c a) = sc (sqrt c) (fsqrt EROps a).
Proof.
  intro H. destruct a as [x| | |]; cbn; auto. unfold nltb, nleb, ROps, Rleb.
  destruct (Rle_dec 0 (c * x)), (Rle_dec 0 x); cbn; auto; try (exfalso; nra). f_equal. apply sqrt_mult; lra.
Qed.
Lemma sc_sum c l : fsum EROps (map (sc c) l) = sc c (fsum EROps l).
Proof.
  rewrite !fsum_fold. rewrite <- (sc_zero c) at 1. generalize (f0 EROps). induction l as [|a l IH]; intro z; [reflexivity|].
  cbn [map fold_left]. rewrite sc_add. apply IH.
Qed.
Lemma sc_dot c l m : 0 < c -> fdot EROps (map (sc c) l) m = sc c (fdot EROps l m).
Proof.
  intro H. unfold fdot. rewrite <- sc_sum. f_equal. revert m.
  induction l as [|a l IH]; intros [|b m]; auto. cbn [map map2]. f_equal; auto.
  rewrite <- (sc_1 b) at 1. rewrite sc_times by lra. now rewrite Rmult_1_r.
Qed.
Lemma sc_map2 c l m : map2 (fsub EROps) (map (sc c) l) (map (sc c) m) = map (sc c) (map2 (fsub EROps) l m).
Proof. revert m. induction l as [|a l IH]; intros [|b m]; auto. cbn [map map2]. now rewrite sc_sub, IH. Qed.

Section Scale.
  Context {P Y K : Type} (p0 : P) (y0 : Y) (c : R) (Hc : 0 < c) (s s' : kthin ER P K).
  Hypothesis same : s' = mkKT (kt_size s) (kt_kernel s) (fun a b => fmul EROps (Fin c) (kt_sqrt s a b)) (kt_delta s)
    (kt_key s) (kt_log s) (kt_split s) (kt_uniform s) (kt_choice s) (kt_depth s) (kt_ord s).
  Let q := sqrt c.
  Let Hq : 0 < q. Proof. now apply sqrt_lt_R0. Qed.
  Let Eq : q * q = c. Proof. apply sqrt_sqrt. lra. Qed.

  Lemma distance_scale x1 x2 : kernel_distance EROps (kt_sqrt s') x1 x2 = sc q (kernel_distance EROps (kt_sqrt s) x1 x2).
  Proof.
    rewrite same. cbn [kt_sqrt]. unfold kernel_distance. rewrite !sc_mul by exact Hc. rewrite sc_add.
    replace (fmul EROps (fofZ EROps 2) (sc c (kt_sqrt s x1 x2))) with (sc c (fmul EROps (fofZ EROps 2) (kt_sqrt s x1 x2))).
    - rewrite sc_sub. now apply sc_sqrt.
    - rewrite <- (sc_1 (fofZ EROps 2)) at 2. rewrite sc_times by lra. now rewrite Rmult_1_l.
  Qed.
  Lemma sqr_scale e a : 0 < e -> sqr EROps (sc e a) = sc (e * e) (sqr EROps a).
  Proof. intro. now apply sc_times. Qed.
  Lemma a_sigma_scale log delta b sigma :
    let r := a_and_sigma EROps log delta b sigma in
    a_and_sigma EROps log delta (sc q b) (sc q sigma) = (sc c (fst r), sc q (snd r)).
  Proof.
    unfold a_and_sigma. cbv zeta. cbn [fst snd].
    set (C := fsqrt EROps (fmul EROps (fofZ EROps 2) (log (fdiv EROps (fofZ EROps 2) delta)))).
    assert (EA : fmax EROps (fmul EROps (fmul EROps (sc q b) (sc q sigma)) C) (sqr EROps (sc q b))
                 = sc c (fmax EROps (fmul EROps (fmul EROps b sigma) C) (sqr EROps b))).
    { rewrite sc_times, sqr_scale, Eq by exact Hq. rewrite <- sc_max by exact Hc. f_equal.
      rewrite <- (sc_1 C) at 1. rewrite sc_times by lra. now rewrite Rmult_1_r. }
    rewrite EA. set (a := fmax EROps _ (sqr EROps b)). f_equal.
    etransitivity; [|apply (sc_sqrt c _ Hc)]. f_equal. rewrite <- sc_add. rewrite sqr_scale, Eq by exact Hq. f_equal.
    rewrite <- sc_max by exact Hc. rewrite sc_zero. f_equal.
    rewrite !sqr_scale, Eq by (exact Hq || exact Hc).
    replace (fmul EROps (fofZ EROps 2) (sc c a)) with (sc c (fmul EROps (fofZ EROps 2) a))
      by (rewrite <- (sc_1 (fofZ EROps 2)) at 2; rewrite sc_times by lra; now rewrite Rmult_1_l).
    rewrite sc_sub, sc_times by exact Hc. rewrite sc_div by (apply Rmult_lt_0_compat; exact Hc).
    replace (c * c / (c * c)) with 1 by (field; lra). rewrite sc_1.
    set (g := fadd EROps (f1 EROps) _). rewrite <- (sc_1 g) at 1. rewrite sc_times by lra. now rewrite Rmult_1_r.
  Qed.
  Lemma alpha_scale orig x1 x2 first mask cmask :
    get_alpha EROps p0 (kt_sqrt s') orig x1 x2 first mask cmask = sc c (get_alpha EROps p0 (kt_sqrt s) orig x1 x2 first mask cmask).
  Proof.
    unfold get_alpha. cbv zeta.
    assert (E : forall l x, map (fun y => kt_sqrt s' y x) l = map (sc c) (map (fun y => kt_sqrt s y x) l)).
    { intros l x. rewrite map_map. apply map_ext. intro y. rewrite same. cbn [kt_sqrt]. now rewrite sc_mul. }
    rewrite !E, !sc_map2, !sc_dot by exact Hc. rewrite <- sc_add. f_equal.
    set (t := fdot EROps _ cmask). rewrite <- (sc_1 (fofZ EROps (-2))) at 1. rewrite sc_times by lra. now rewrite Rmult_1_l.
  Qed.
  Definition rel (st st' : hstate ER K) : Prop :=
    st' = mkH (h_first st) (h_second st) (sc q (h_sigma st)) (h_mask st) (h_cmask st) (h_key st).
  Lemma body_rel orig i st st' : rel st st' -> rel (kt_body EROps p0 s orig i st) (kt_body EROps p0 s' orig i st').
  Proof.
    intros ->. unfold kt_body, rel. cbv zeta. cbn [h_first h_second h_sigma h_mask h_cmask h_key].
    rewrite distance_scale, alpha_scale. rewrite same at 1 2. cbn [kt_log kt_delta]. rewrite a_sigma_scale.
    destruct (a_and_sigma EROps (kt_log s) (kt_delta s) _ (h_sigma st)) as [a sg]. cbn [fst snd].
    set (al := get_alpha EROps p0 (kt_sqrt s) orig _ _ _ _ _).
    assert (E : should_swap EROps s' (sc c a) (sc c al) (h_key st) = should_swap EROps s a al (h_key st)).
    { unfold should_swap. rewrite same. cbn [kt_split kt_uniform]. rewrite sc_div by exact Hc.
      replace (c / c) with 1 by (field; lra). now rewrite sc_1. }
    rewrite E. destruct (should_swap EROps s a al (h_key st)) as [sw key]. destruct sw; reflexivity.
  Qed.
  Lemma fori_rel orig n : forall st st', rel st st' -> rel (fori n (kt_body EROps p0 s orig) st) (fori n (kt_body EROps p0 s' orig) st').
  Proof. induction n as [|n IH]; intros st st' H; [exact H|]. rewrite !fori_S. apply body_rel, IH, H. Qed.
  Lemma half_scale (d : Data P Y ER) : kt_half EROps p0 y0 s' d = kt_half EROps p0 y0 s d.
  Proof.
    unfold kt_half. destruct (Nat.odd (d_len d)); [reflexivity|].
    assert (R : rel (kt_half_loop EROps p0 s (d_x d)) (kt_half_loop EROps p0 s' (d_x d))).
    { unfold kt_half_loop. apply fori_rel. unfold rel. cbn [h_first h_second h_sigma h_mask h_cmask h_key]. rewrite sc_zero, same. reflexivity. }
    cbv zeta. rewrite R. reflexivity.
  Qed.
  Lemma half_rec_scale m : forall cur (orig : Data P Y ER), kt_half_rec EROps p0 y0 s' cur m orig = kt_half_rec EROps p0 y0 s cur m orig.
  Proof.
    induction m as [|m IH]; intros cur orig; [reflexivity|]. cbn [kt_half_rec]. rewrite half_scale.
    destruct (kt_half EROps p0 y0 s _) as [cc|e]; [|reflexivity]. cbn [bind]. now rewrite !IH.
  Qed.
  Lemma reduce_scale (d : Data P Y ER) : kt_reduce EROps p0 y0 s' d = kt_reduce EROps p0 y0 s d.
  Proof.
    unfold kt_reduce, kt_candidates. rewrite half_rec_scale, same. reflexivity.
  Qed.
End Scale.
Lemma with_size_scale {P K} c (s : kthin ER P K) n :
  with_size (mkKT (kt_size s) (kt_kernel s) (fun a b => fmul EROps (Fin c) (kt_sqrt s a b)) (kt_delta s)
    (kt_key s) (kt_log s) (kt_split s) (kt_uniform s) (kt_choice s) (kt_depth s) (kt_ord s)) n
  = let s' := with_size s n in mkKT (kt_size s') (kt_kernel s') (fun a b => fmul EROps (Fin c) (kt_sqrt s' a b)) (kt_delta s')
    (kt_key s') (kt_log s') (kt_split s') (kt_uniform s') (kt_choice s') (kt_depth s') (kt_ord s').
Proof. reflexivity. Qed.
Lemma thin_scale {P Y K} (p0 : P) (y0 : Y) c (s s' : kthin ER P K) (d : Data P Y ER) size idx : 0 < c ->
  s' = mkKT (kt_size s) (kt_kernel s) (fun a b => fmul EROps (Fin c) (kt_sqrt s a b)) (kt_delta s)
    (kt_key s) (kt_log s) (kt_split s) (kt_uniform s) (kt_choice s) (kt_depth s) (kt_ord s) ->
  compress_thin EROps p0 y0 s' d size idx = compress_thin EROps p0 y0 s d size idx.
Proof.
  intros Hc ->. unfold compress_thin. rewrite (reduce_scale p0 y0 c Hc (with_size s size) _ (with_size_scale c s size)). reflexivity.
Qed.
Lemma mapM_ext {A B} (f g : A -> result B) l : (forall a, f a = g a) -> mapM f l = mapM g l.
Proof. intro H. induction l as [|a l IH]; [reflexivity|]. cbn [mapM]. rewrite H, IH. reflexivity. Qed.
Lemma compress_rec_scale {P Y K} (p0 : P) (y0 : Y) c (s s' : kthin ER P K) (d : Data P Y ER) g fuel : 0 < c ->
  s' = mkKT (kt_size s) (kt_kernel s) (fun a b => fmul EROps (Fin c) (kt_sqrt s a b)) (kt_delta s)
    (kt_key s) (kt_log s) (kt_split s) (kt_uniform s) (kt_choice s) (kt_depth s) (kt_ord s) ->
  forall idx, compress_rec EROps p0 y0 s' d g fuel idx = compress_rec EROps p0 y0 s d g fuel idx.
Proof.
  intros Hc E. induction fuel as [|fuel IH]; intro idx; cbn [compress_rec]; destruct (_ =? _)%nat; auto.
  destruct (negb _); auto. rewrite (mapM_ext _ _ _ IH). destruct (mapM _ _) as [parts|]; [|reflexivity]. cbn [bind].
  unfold compress_half. now apply (thin_scale p0 y0 c).
Qed.
Lemma compress_scale {P Y K} (p0 : P) (y0 : Y) c (s s' : kthin ER P K) (d : Data P Y ER) g log4 fuel : 0 < c ->
  s' = mkKT (kt_size s) (kt_kernel s) (fun a b => fmul EROps (Fin c) (kt_sqrt s a b)) (kt_delta s)
    (kt_key s) (kt_log s) (kt_split s) (kt_uniform s) (kt_choice s) (kt_depth s) (kt_ord s) ->
  compress_reduce EROps p0 y0 (mkCP g s' log4) fuel d = compress_reduce EROps p0 y0 (mkCP g s log4) fuel d.
Proof.
  intros Hc E. unfold compress_reduce. cbn [cp_kt cp_g cp_log4].
  assert (E1 : kt_size s' = kt_size s) by now rewrite E. assert (E2 : kt_choice s' = kt_choice s) by now rewrite E.
  rewrite E1, E2. destruct (_ <? _)%nat; auto. destruct (_ =? _)%nat; auto. destruct (negb _); auto. destruct (negb _); auto.
  destruct (kt_choice s _ _ _ _) as [cl|]; auto. cbn [bind]. rewrite (compress_rec_scale p0 y0 c s s' d _ _ Hc E).
  destruct (compress_rec _ _ _ s d _ _ _) as [cm|]; auto. cbn [bind]. now rewrite (thin_scale p0 y0 c s s' d _ _ Hc E).
Qed.
