(** * Proofs about the square root kernel *)
From Coq Require Import List ZArith Reals Lra Lia FunctionalExtensionality.
From Verif Require Import Num Jax RSum KernelModel KernelSpec KernelProofs KernelProofs2 KernelProofs4 KernelProofs7 MetricProofs KTProofs4 GaussProofs SqrtSpec.
From Coquelicot Require Import Coquelicot.
Import ListNotations.
Open Scope R_scope.

Lemma sqdist_cons a x b y : sqdist (a :: x) (b :: y) = (a - b) ^ 2 + sqdist x y.
Proof. unfold sqdist, vsub. cbn [map2]. unfold Rdot. cbn [map2 Rsum]. ring. Qed.

Lemma gauss_product l : 0 < l -> forall d x y C, length x = d -> length y = d ->
  iterated_integral d (fun z => C * exp (- (sqdist x z + sqdist z y) / l ^ 2))
    (C * exp (- sqdist x y / (2 * l ^ 2)) * sqrt (PI * l ^ 2 / 2) ^ d).
Proof.
  intros Hl. assert (Hl2 : 0 < l ^ 2) by (apply pow_lt; exact Hl).
  induction d as [|d IH]; intros x y C Hx Hy.
  - destruct x; [|discriminate]. destruct y; [|discriminate]. cbn [iterated_integral].
    unfold sqdist, Rdot, vsub. cbn [map2 Rsum pow]. rewrite Rmult_1_r. do 2 f_equal. field. lra.
  - destruct x as [|a x]; [discriminate|]. destruct y as [|b y]; [discriminate|]. injection Hx as Hx. injection Hy as Hy.
    cbn [iterated_integral].
    exists (fun t => C * exp (- ((a - t) ^ 2 + (t - b) ^ 2) / l ^ 2) * exp (- sqdist x y / (2 * l ^ 2)) * sqrt (PI * l ^ 2 / 2) ^ d). split.
    + intro t. specialize (IH x y (C * exp (- ((a - t) ^ 2 + (t - b) ^ 2) / l ^ 2)) Hx Hy).
      replace (fun z => C * exp (- (sqdist (a :: x) (t :: z) + sqdist (t :: z) (b :: y)) / l ^ 2))
        with (fun z => C * exp (- ((a - t) ^ 2 + (t - b) ^ 2) / l ^ 2) * exp (- (sqdist x z + sqdist z y) / l ^ 2)); [exact IH|].
      extensionality z. rewrite !sqdist_cons, Rmult_assoc, <- exp_plus. do 2 f_equal. field. lra.
    + set (m := (a + b) / 2). set (w := sqrt (PI * l ^ 2 / 2)). rewrite sqdist_cons.
      set (K := C * exp (- (a - b) ^ 2 / (2 * l ^ 2)) * exp (- sqdist x y / (2 * l ^ 2)) * w ^ d).
      apply is_RInt_gen_ext with (fun t => scal K (exp (- (2 / l ^ 2) * (t - m) ^ 2))).
      { apply filter_forall. intros [u v] t _. unfold scal; cbn -[pow]. unfold mult; cbn -[pow]. unfold K.
        replace (exp (- ((a - t) ^ 2 + (t - b) ^ 2) / l ^ 2)) with (exp (- (2 / l ^ 2) * (t - m) ^ 2) * exp (- (a - b) ^ 2 / (2 * l ^ 2))).
        - ring.
        - rewrite <- exp_plus. f_equal. unfold m. field. lra. }
      replace (C * exp (- ((a - b) ^ 2 + sqdist x y) / (2 * l ^ 2)) * w ^ S d) with (scal K (sqrt (PI / (2 / l ^ 2)))).
      { apply (is_RInt_gen_scal (V := R_NormedModule)). apply gauss_integral. apply Rdiv_lt_0_compat; lra. }
      unfold scal; cbn -[pow]. unfold mult; cbn -[pow]. unfold K.
      replace (PI / (2 / l ^ 2)) with (PI * l ^ 2 / 2) by (field; lra). fold w.
      replace (- ((a - b) ^ 2 + sqdist x y) / (2 * l ^ 2)) with (- (a - b) ^ 2 / (2 * l ^ 2) + - sqdist x y / (2 * l ^ 2)) by (field; lra).
      rewrite exp_plus. cbn [pow]. ring.
Qed.

(** the hyper-parameters [get_sqrt_kernel] computes *)
Definition root_length (len : R) : R := len / sqrt 2.
Definition root_scale (len scale : R) (d : nat) : R := sqrt scale * Rpower (2 / (PI * len ^ 2)) (INR d / 4).
Lemma root_kernel len scale d : 0 < len -> 0 < scale ->
  0 < root_length len /\ 0 < root_scale len scale d /\
  se_sqrt_kernel EROps ERT (Fin len) (Fin scale) d = Ok (lift (KSE (root_length len) (root_scale len scale d))).
Proof.
  intros Hl Hs. assert (P := PI_RGT_0). assert (S2 : 0 < sqrt 2) by (apply sqrt_lt_R0; lra).
  assert (A : 0 < root_length len) by (unfold root_length; apply Rdiv_lt_0_compat; lra).
  assert (B : 0 < root_scale len scale d) by (unfold root_scale; apply Rmult_lt_0_compat; [now apply sqrt_lt_R0|apply exp_pos]).
  split; [exact A|]. split; [exact B|].
  unfold se_sqrt_kernel.
  assert (Hl2 : 0 < len ^ 2) by (apply pow_lt; exact Hl).
  assert (Q : 0 < PI * len ^ 2) by (apply Rmult_lt_0_compat; lra).
  change (fofZ EROps ?z) with (Fin (IZR z) : ER). change (fpi ERT) with (Fin PI : ER).
  rewrite sq_fin, !fsqrt_fin by lra. change (fmul EROps (Fin PI) (Fin (len ^ 2))) with (Fin (PI * len ^ 2) : ER).
  rewrite !fdiv_fin by lra. rewrite fpow_fin by (apply Rdiv_lt_0_compat; lra).
  rewrite <- INR_IZR_INZ. change (fmul EROps (Fin ?a) (Fin ?b)) with (Fin (a * b) : ER).
  fold (root_scale len scale d). change (len / sqrt 2) with (root_length len).
  unfold check_init, le0. change (f0 EROps) with (Fin 0 : ER).
  assert (N : forall a, 0 < a -> fleb EROps (Fin a) (Fin 0) = false).
  { intros a Ha. destruct (fleb EROps (Fin a) (Fin 0)) eqn:E; auto. apply fleb_fin in E. lra. }
  rewrite !N by assumption. reflexivity.
Qed.
Lemma root_constant len scale d : 0 < len -> 0 < scale ->
  root_scale len scale d ^ 2 * sqrt (PI * len ^ 2 / 2) ^ d = scale.
Proof.
  intros Hl Hs. assert (P := PI_RGT_0). assert (Hl2 : 0 < len ^ 2) by (apply pow_lt; exact Hl).
  assert (Q : 0 < PI * len ^ 2) by (apply Rmult_lt_0_compat; lra).
  assert (A : 0 < PI * len ^ 2 / 2) by lra.
  unfold root_scale. rewrite Rpow_mult_distr, pow2_sqrt by lra.
  replace (Rpower (2 / (PI * len ^ 2)) (INR d / 4) ^ 2) with (Rpower (2 / (PI * len ^ 2)) (INR d / 2)).
  2: { set (q := 2 / (PI * len ^ 2)). replace (Rpower q (INR d / 4) ^ 2) with (Rpower q (INR d / 4) * Rpower q (INR d / 4)) by ring. rewrite <- Rpower_plus. f_equal. field. }
  replace (sqrt (PI * len ^ 2 / 2) ^ d) with (Rpower (PI * len ^ 2 / 2) (INR d / 2)).
  2: { rewrite <- (Rpower_pow d (sqrt (PI * len ^ 2 / 2))) by (now apply sqrt_lt_R0). rewrite <- Rpower_sqrt by exact A. rewrite Rpower_mult. f_equal. field. }
  rewrite Rmult_assoc. rewrite Rpower_mult_distr; [|apply Rdiv_lt_0_compat; lra|exact A].
  replace (2 / (PI * len ^ 2) * (PI * len ^ 2 / 2)) with 1 by (field; lra).
  unfold Rpower. rewrite ln_1, Rmult_0_r, exp_0. ring.
Qed.
Lemma root_integral len scale d x y : 0 < len -> 0 < scale -> length x = d -> length y = d ->
  let k := kfun (KSE (root_length len) (root_scale len scale d)) in
  iterated_integral d (fun z => k x z * k z y) (kfun (KSE len scale) x y).
Proof.
  intros Hl Hs Hx Hy k. assert (S2 : 0 < sqrt 2) by (apply sqrt_lt_R0; lra).
  assert (E : 2 * root_length len ^ 2 = len ^ 2).
  { unfold root_length. unfold Rdiv. rewrite Rpow_mult_distr, pow_inv, pow2_sqrt by lra. field. }
  pose proof (gauss_product len Hl d x y (root_scale len scale d ^ 2) Hx Hy) as G.
  replace (fun z => k x z * k z y) with (fun z => root_scale len scale d ^ 2 * exp (- (sqdist x z + sqdist z y) / len ^ 2)).
  2: { extensionality z. unfold k. cbn [kfun]. rewrite E.
       replace (- (sqdist x z + sqdist z y) / len ^ 2) with (- (sqdist x z / len ^ 2) + - (sqdist z y / len ^ 2)) by (field; lra).
       rewrite exp_plus. ring. }
  replace (kfun (KSE len scale) x y) with (root_scale len scale d ^ 2 * exp (- sqdist x y / (2 * len ^ 2)) * sqrt (PI * len ^ 2 / 2) ^ d); [exact G|].
  cbn [kfun]. pose proof (root_constant len scale d Hl Hs) as RC. set (q := root_scale len scale d ^ 2) in *. rewrite <- RC.
  replace (- (sqdist x y / (2 * len ^ 2))) with (- sqdist x y / (2 * len ^ 2)) by (field; lra). ring.
Qed.
