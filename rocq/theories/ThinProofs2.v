(** * The score of a one-dimensional kernel density estimate and its derivative *)
From Coq Require Import List ZArith Reals Lra Lia Bool.
From Coquelicot Require Import Coquelicot.
From Verif Require Import Num Jax RSum JaxFacts KernelModel KernelSpec KernelProofs2 KernelProofs3 ScoreSpec ScoreProofs ThinSpec.
Import ListNotations.
Open Scope R_scope.

Definition ge (t c : R) : R := exp (- ((t - c) * (t - c) / 2)).
Definition A0 (cs : list R) t := Rsum (map (fun c => ge t c) cs).
Definition A1 (cs : list R) t := Rsum (map (fun c => (c - t) * ge t c) cs).
Definition A2 (cs : list R) t := Rsum (map (fun c => (c - t) * (c - t) * ge t c) cs).
Notation col cs := (map (fun c : R => [c]) cs).
Lemma ge_pos t c : 0 < ge t c. Proof. apply exp_pos. Qed.
Lemma ge_derive c t : is_derive (fun t => ge t c) t ((c - t) * ge t c).
Proof.
  unfold ge. auto_derive; [exact I|]. match goal with |- context [exp ?a] => replace a with (- ((t - c) * (t - c) / 2)) by field end. field.
Qed.
Lemma A0_pos cs t : cs <> [] -> 0 < A0 cs t.
Proof.
  destruct cs as [|c cs]; [contradiction|]. intros _. unfold A0. cbn [map Rsum]. pose proof (ge_pos t c).
  assert (0 <= Rsum (map (fun c => ge t c) cs)); [|lra]. clear. induction cs as [|c cs IH]; cbn [map Rsum]; [lra|]. pose proof (ge_pos t c). lra.
Qed.
Lemma A0_derive cs t : is_derive (A0 cs) t (A1 cs t).
Proof. unfold A0, A1. apply (is_derive_Rsum (fun c t => ge t c)). intros. apply ge_derive. Qed.
Lemma A1_derive cs t : is_derive (A1 cs) t (A2 cs t - A0 cs t).
Proof.
  replace (A2 cs t - A0 cs t) with (Rsum (map (fun c => -1 * ge t c + (c - t) * ((c - t) * ge t c)) cs)).
  - unfold A1. apply (is_derive_Rsum (fun c t => (c - t) * ge t c)). intros c _.
    apply (is_derive_mult_R (fun t => c - t) (fun t => ge t c)); [|apply ge_derive]. auto_derive; [exact I|ring].
  - unfold A2, A0. induction cs as [|c cs IH]; cbn [map Rsum]; [ring|]. rewrite IH. ring.
Qed.
Lemma score_1d cs t : cs <> [] -> score_real 1 (col cs) [t] = [A1 cs t / A0 cs t].
Proof.
  intro H. pose proof (sc_pos 1 ltac:(lra)) as SP. set (s := 1 / (sqrt (2 * PI) * 1)) in *. unfold score_real, ksum. fold s. cbn [length seq map]. f_equal.
  assert (E0 : Rsum (map (fun c => kfun (KSE 1 s) [t] c) (col cs)) = s * A0 cs t).
  { unfold A0. rewrite map_map, <- Rsum_map_scal. apply Rsum_map_ext. intros c _. cbn [kfun]. unfold ge, sqdist, Rdot, vsub. cbn. do 3 f_equal. field. }
  assert (E1 : Rsum (map (fun c => GX (KSE 1 s) [t] c 0) (col cs)) = s * A1 cs t).
  { unfold A1. rewrite map_map, <- Rsum_map_scal. apply Rsum_map_ext. intros c _. cbn [GX nth phi1]. unfold ge, sqdist, Rdot, vsub. cbn.
    replace (- (((t - c) * (t - c) + 0) / (2 * (1 * (1 * 1))))) with (- ((t - c) * (t - c) / 2)) by field. field. }
  rewrite E0, E1. rewrite map_length. pose proof (A0_pos cs t H).
  assert (0 < INR (length cs)) by (destruct cs; [contradiction|apply lt_0_INR; cbn; lia]). field. repeat split; lra.
Qed.
Definition curv cs t := (A2 cs t * A0 cs t - A1 cs t * A1 cs t) / (A0 cs t * A0 cs t) - 1.
Lemma score_1d_derive cs t : cs <> [] -> diagonal_derivatives (score_real 1 (col cs)) [t] [curv cs t].
Proof.
  intro H. split; [reflexivity|]. intros i Hi. destruct i; [|cbn in Hi; lia]. cbn [nth].
  apply (is_derive_ext (fun u => A1 cs u / A0 cs u)).
  { intro u. unfold set_coord. cbn [upd]. now rewrite score_1d. }
  pose proof (A0_pos cs t H).
  assert (E : curv cs t = ((A2 cs t - A0 cs t) * A0 cs t - A1 cs t * A1 cs t) / A0 cs t ^ 2) by (unfold curv; field; lra).
  rewrite E. apply is_derive_Reals. 
  replace (A0 cs t ^ 2) with (Rsqr (A0 cs t)) by (unfold Rsqr; ring).
  replace (A1 cs t * A1 cs t) with (A1 cs t * A1 cs t) by reflexivity.
  apply (derivable_pt_lim_div (A1 cs) (A0 cs)); [apply is_derive_Reals, A1_derive|apply is_derive_Reals, A0_derive|lra].
Qed.
Lemma positive_laplacian_1d cs t L : cs <> [] -> positive_laplacian (score_real 1 (col cs)) [t] L -> L = Rmax 0 (curv cs t).
Proof.
  intros H (ds & (Ld & D) & ->). destruct ds as [|v [|]]; try discriminate. cbn. rewrite Rplus_0_r. f_equal.
  destruct (score_1d_derive cs t H) as [_ D']. specialize (D 0%nat ltac:(cbn; lia)). specialize (D' 0%nat ltac:(cbn; lia)). cbn [nth] in D, D'.
  now rewrite <- (is_derive_unique _ _ _ D), <- (is_derive_unique _ _ _ D').
Qed.

(** ** the concrete values *)
Lemma exp_neg_bound u : 0 <= u -> exp (- u) <= / (1 + u / 2) ^ 2.
Proof.
  intro H. rewrite exp_Ropp. apply Rinv_le_contravar; [apply pow_lt; lra|].
  replace (exp u) with (exp (u / 2) ^ 2) by (cbn; rewrite Rmult_1_r, <- exp_plus; f_equal; field).
  pose proof (exp_ineq1_le (u / 2)). apply pow_incr. lra.
Qed.
Lemma ge_same t : ge t t = 1.
Proof. unfold ge. replace (- ((t - t) * (t - t) / 2)) with 0 by field. apply exp_0. Qed.
Lemma ge_bound t c u : 0 <= u -> (t - c) * (t - c) / 2 = u -> 0 < ge t c <= / (1 + u / 2) ^ 2.
Proof. intros H E. split; [apply ge_pos|]. unfold ge. rewrite E. now apply exp_neg_bound. Qed.
Lemma curv_neg cs t : In t cs -> A2 cs t < 1 -> curv cs t < 0.
Proof.
  intros Hin H. assert (N : cs <> []) by (intros ->; destruct Hin). pose proof (A0_pos cs t N) as P0.
  assert (G : 1 <= A0 cs t).
  { clear -Hin. unfold A0. induction cs as [|c cs IH]; [destruct Hin|]. cbn [map Rsum].
    assert (0 <= Rsum (map (fun c => ge t c) cs)) by (clear; induction cs as [|c cs IH]; cbn [map Rsum]; [lra|]; pose proof (ge_pos t c); lra).
    destruct Hin as [->|Hin]; [rewrite ge_same; lra|]. specialize (IH Hin). pose proof (ge_pos t c). lra. }
  unfold curv. assert (A2 cs t * A0 cs t - A1 cs t * A1 cs t < A0 cs t * A0 cs t) by nra.
  assert ((A2 cs t * A0 cs t - A1 cs t * A1 cs t) / (A0 cs t * A0 cs t) < 1).
  { apply Rmult_lt_reg_r with (A0 cs t * A0 cs t); [nra|]. unfold Rdiv. rewrite Rmult_assoc, Rinv_l by nra. lra. }
  lra.
Qed.
Definition cs0 : list R := [5 / 2; 100].
Definition cs1 : list R := [5 / 2; 100] ++ repeat 0 8.
Lemma far : 0 < ge (5 / 2) 100 <= 1 / 1000000.
Proof.
  destruct (ge_bound (5 / 2) 100 (38025 / 8)) as [G1 G2]; lra.
Qed.
Lemma ge_sym t c : ge t c = ge c t. Proof. unfold ge. f_equal. field. Qed.
Lemma far0 : 0 < ge 100 0 <= 1 / 6000000.
Proof.
  destruct (ge_bound 100 0 5000) as [G1 G2]; lra.
Qed.
Lemma near : 1 / 31 < ge (5 / 2) 0 < 1 / 6.
Proof.
  split.
  - unfold ge. replace (- ((5 / 2 - 0) * (5 / 2 - 0) / 2)) with (- (25 / 8)) by field. rewrite exp_Ropp. unfold Rdiv. rewrite Rmult_1_l. apply Rinv_lt_contravar.
    { apply Rmult_lt_0_compat; [apply exp_pos|lra]. }
    destruct (Rlt_le_dec (exp (25 * / 8)) 31) as [|G]; [assumption|]. exfalso.
    assert (E : exp (25 * / 8) ^ 8 = exp 1 ^ 25).
    { cbn [pow]. rewrite !Rmult_1_r, <- !exp_plus. f_equal. field. }
    assert (E1 : exp 1 ^ 25 <= 3 ^ 25) by (apply pow_incr; split; [left; apply exp_pos|exact exp_le_3]).
    assert (E2 : 31 ^ 8 <= exp (25 * / 8) ^ 8) by (apply pow_incr; lra). rewrite E in E2. lra.
  - destruct (ge_bound (5 / 2) 0 (25 / 8)) as [_ G]; lra.
Qed.
Lemma curv_cs0_a : curv cs0 (5 / 2) < 0.
Proof. apply curv_neg; [now left|]. unfold A2, cs0. cbn [map Rsum]. rewrite ge_same. pose proof far. lra. Qed.
Lemma curv_cs0_b : curv cs0 100 < 0.
Proof. apply curv_neg; [right; now left|]. unfold A2, cs0. cbn [map Rsum]. rewrite ge_same, (ge_sym 100 (5 / 2)). pose proof far. lra. Qed.
Lemma curv_cs1_b : curv cs1 100 < 0.
Proof.
  apply curv_neg; [right; now left|]. unfold A2, cs1. cbn [map Rsum repeat app]. rewrite ge_same, (ge_sym 100 (5 / 2)). pose proof far. pose proof far0. lra.
Qed.
Lemma curv_cs1_a : 0 < curv cs1 (5 / 2).
Proof.
  assert (N : cs1 <> []) by discriminate. pose proof (A0_pos cs1 (5 / 2) N) as P0. pose proof far as F. pose proof near as Q.
  assert (E : A0 cs1 (5 / 2) * A0 cs1 (5 / 2) < A2 cs1 (5 / 2) * A0 cs1 (5 / 2) - A1 cs1 (5 / 2) * A1 cs1 (5 / 2)).
  { set (e := ge (5 / 2) 100) in *. set (q := ge (5 / 2) 0) in *.
    replace (A0 cs1 (5 / 2)) with (1 + e + 8 * q) by (unfold A0, cs1; cbn [map Rsum repeat app]; rewrite ge_same; fold e q; ring).
    replace (A1 cs1 (5 / 2)) with (195 / 2 * e - 20 * q) by (unfold A1, cs1; cbn [map Rsum repeat app]; rewrite ge_same; fold e q; field).
    replace (A2 cs1 (5 / 2)) with (38025 / 4 * e + 50 * q) by (unfold A2, cs1; cbn [map Rsum repeat app]; rewrite ge_same; fold e q; field).
    assert (0 < e * q) by nra. nra. }
  unfold curv. assert (1 < (A2 cs1 (5 / 2) * A0 cs1 (5 / 2) - A1 cs1 (5 / 2) * A1 cs1 (5 / 2)) / (A0 cs1 (5 / 2) * A0 cs1 (5 / 2))); [|lra].
  apply Rmult_lt_reg_r with (A0 cs1 (5 / 2) * A0 cs1 (5 / 2)); [nra|]. unfold Rdiv. rewrite Rmult_assoc, Rinv_l by nra. lra.
Qed.
