(** * Functions of a conditionally negative definite kernel *)
From Coq Require Import List ZArith Reals Lia Lra.
From Coquelicot Require Import Coquelicot.
From Verif Require Import RSum MetricSpec MetricProofs PsdProofs.
Import ListNotations.
Open Scope R_scope.

Lemma exp_pow_nat u n : exp (- (INR n * u)) = exp (- u) ^ n.
Proof.
  induction n.
  - cbn. rewrite Rmult_0_l, Ropp_0. apply exp_0.
  - rewrite S_INR. cbn [pow]. rewrite <- IHn, <- exp_plus. f_equal. ring.
Qed.
Lemma lim_exp_neg u : 0 < u -> is_lim_seq (fun n => exp (- (INR n * u))) 0.
Proof.
  intro U. apply is_lim_seq_ext with (fun n => exp (- u) ^ n); [intro; symmetry; apply exp_pow_nat|].
  apply is_lim_seq_geom. rewrite Rabs_right; [|left; apply exp_pos]. rewrite <- exp_0. apply exp_increasing. lra.
Qed.
Lemma lim_inv_INR c : is_lim_seq (fun n => c / INR n) 0.
Proof.
  replace (Finite 0) with (Rbar_mult c 0) by (cbn; f_equal; ring).
  apply (is_lim_seq_scal_l (fun n => / INR n) c 0).
  apply (is_lim_seq_inv INR p_infty); [apply is_lim_seq_INR|discriminate].
Qed.
Lemma lim_atan r : 0 < r -> is_lim_seq (fun n => atan (INR n / r)) (PI / 2).
Proof.
  intro Hr. apply is_lim_seq_ext_loc with (fun n => PI / 2 - atan (r / INR n)).
  - exists 1%nat. intros n Hn. assert (0 < INR n) by (apply lt_0_INR; lia).
    replace (INR n / r) with (/ (r / INR n)) by (field; lra). rewrite atan_inv; auto. now apply Rdiv_lt_0_compat.
  - replace (Finite (PI / 2)) with (Finite (PI / 2 - 0)) by (f_equal; ring). apply is_lim_seq_minus'; [apply is_lim_seq_const|].
    rewrite <- atan_0. apply (is_lim_seq_continuous atan (fun n => r / INR n) 0).
    + apply derivable_continuous_pt, derivable_pt_atan.
    + apply lim_inv_INR.
Qed.

Section Cnd.
  Context {P : Type} (s : P -> P -> R).
  Hypothesis Pos : forall p q, 0 <= s p q.
  Hypothesis C : cnd s.
  Lemma one_tau tau p q : 0 <= tau -> 1 <= 1 + tau * s p q.
  Proof. intro T. assert (0 <= tau * s p q) by (apply Rmult_le_pos; auto). lra. Qed.
  Lemma psd_gauss tau : 0 <= tau -> psd (fun p q => exp (- (tau * s p q))).
  Proof. intro. apply schoenberg. now apply cnd_scal. Qed.

  Lemma psd_inv tau : 0 <= tau -> psd (fun p q => / (1 + tau * s p q)).
  Proof.
    intro T.
    apply psd_lim with (fun n p q => (1 - exp (- (INR n * (1 + tau * s p q)))) / (1 + tau * s p q)).
    - intro n. split; [intros a b; now rewrite (proj1 C a b)|]. intro ms.
      assert (Z : bil (fun p q => (1 - exp (- (0 * (1 + tau * s p q)))) / (1 + tau * s p q)) ms ms = 0).
      { rewrite (bil_ext _ (fun p q => 0 * 1)); [rewrite bil_scalk; ring|]. intros. rewrite Rmult_0_l, Ropp_0, exp_0. unfold Rdiv. ring. }
      rewrite <- Z at 1.
      apply (increasing_from (fun t => bil (fun p q => (1 - exp (- (t * (1 + tau * s p q)))) / (1 + tau * s p q)) ms ms)
        (fun t => bil (fun p q => exp (- t) * exp (- (t * tau * s p q))) ms ms)); [apply pos_INR| |].
      + intros t _. apply (derive_bil ms ms (fun t p q => (1 - exp (- (t * (1 + tau * s p q)))) / (1 + tau * s p q))).
        intros p q. assert (O := one_tau tau p q T). auto_derive; [lra|]. rewrite <- exp_plus.
        replace (- t + - (t * tau * s p q)) with (- (t * (1 + tau * s p q))) by ring. field. lra.
      + intros t [H0 _]. apply (psd_scal (exp (- t)) (fun p q => exp (- (t * tau * s p q)))); [left; apply exp_pos|].
        apply psd_gauss. apply Rmult_le_pos; lra.
    - intros p q. assert (O := one_tau tau p q T).
      replace (/ (1 + tau * s p q)) with ((1 - 0) / (1 + tau * s p q)) by (field; lra).
      apply is_lim_seq_ext with (fun n => (/ (1 + tau * s p q)) * (1 - exp (- (INR n * (1 + tau * s p q))))); [intro; unfold Rdiv; ring|].
      replace ((1 - 0) / (1 + tau * s p q)) with (/ (1 + tau * s p q) * (1 - 0)) by (field; lra).
      apply (is_lim_seq_scal_l _ _ (1 - 0)). apply is_lim_seq_minus'; [apply is_lim_seq_const|]. apply lim_exp_neg. lra.
  Qed.

  Lemma bil_one (ms : list (P * R)) : bil (fun _ _ => 1) ms ms = Rsum (map snd ms) * Rsum (map snd ms).
  Proof. rewrite bil_lin. rewrite !lin_const. ring. Qed.
  Lemma cnd_log tau : 0 <= tau -> cnd (fun p q => ln (1 + tau * s p q)).
  Proof.
    intro T. split; [intros a b; now rewrite (proj1 C a b)|]. intros ms Z.
    assert (Z0 : bil (fun p q => - ln (1 + 0 * s p q)) ms ms = 0).
    { rewrite (bil_ext _ (fun p q => 0 * 1)); [rewrite bil_scalk; ring|]. intros. rewrite Rmult_0_l, Rplus_0_r, ln_1. ring. }
    assert (H : bil (fun p q => - ln (1 + 0 * s p q)) ms ms <= bil (fun p q => - ln (1 + tau * s p q)) ms ms).
    { apply (increasing_from (fun t => bil (fun p q => - ln (1 + t * s p q)) ms ms)
        (fun t => bil (fun p q => - (s p q / (1 + t * s p q))) ms ms)); auto.
      - intros t Ht. apply (derive_bil ms ms (fun t p q => - ln (1 + t * s p q))).
        intros p q. assert (O := one_tau t p q ltac:(lra)). auto_derive; [lra|]. field. lra.
      - intros t Ht. rewrite (bil_ext _ (fun p q => / t * (/ (1 + t * s p q) + (-1) * 1))).
        + rewrite bil_scalk, bil_addk, bil_scalk, bil_one, Z. apply Rmult_le_pos; [left; apply Rinv_0_lt_compat; lra|].
          assert (K := proj2 (psd_inv t ltac:(lra)) ms). lra.
        + intros p q. assert (O := one_tau t p q ltac:(lra)). field. lra. }
    rewrite Z0 in H. rewrite (bil_ext _ (fun p q => (-1) * ln (1 + tau * s p q))) in H by (intros; ring).
    rewrite bil_scalk in H. lra.
  Qed.
  Lemma psd_power tau a : 0 <= tau -> 0 <= a -> psd (fun p q => Rpower (1 + tau * s p q) (- a)).
  Proof.
    intros T A. apply psd_ext with (fun p q => exp (- (a * ln (1 + tau * s p q)))).
    - intros. unfold Rpower. f_equal. ring.
    - apply schoenberg, cnd_scal; auto. now apply cnd_log.
  Qed.

  Lemma cnd_sqrt : cnd (fun p q => sqrt (s p q)).
  Proof.
    split; [intros a b; now rewrite (proj1 C a b)|]. intros ms Z.
    assert (N : forall n, bil (fun p q => sqrt (s p q) * atan (INR n / sqrt (s p q))) ms ms <= 0).
    { intro n.
      assert (Z0 : bil (fun p q => - (sqrt (s p q) * atan (0 / sqrt (s p q)))) ms ms = 0).
      { rewrite (bil_ext _ (fun p q => 0 * 1)); [rewrite bil_scalk; ring|]. intros. unfold Rdiv. rewrite Rmult_0_l, atan_0. ring. }
      assert (H : bil (fun p q => - (sqrt (s p q) * atan (0 / sqrt (s p q)))) ms ms <= bil (fun p q => - (sqrt (s p q) * atan (INR n / sqrt (s p q)))) ms ms).
      { apply (increasing_from (fun t => bil (fun p q => - (sqrt (s p q) * atan (t / sqrt (s p q)))) ms ms)
          (fun t => bil (fun p q => - (s p q / (s p q + t ^ 2))) ms ms)); [apply pos_INR| |].
        - intros t Ht. apply (derive_bil ms ms (fun t p q => - (sqrt (s p q) * atan (t / sqrt (s p q))))).
          intros p q. destruct (Req_dec (s p q) 0) as [E|E].
          + rewrite E, sqrt_0. apply is_derive_ext with (fun _ => 0); [intro t0; change (0 = - (0 * atan (t0 / 0))); ring|].
            replace (- (0 / (0 + t ^ 2))) with 0 by (unfold Rdiv; ring). apply is_derive_Reals, derivable_pt_lim_const.
          + assert (Q : 0 < s p q) by (specialize (Pos p q); lra). assert (0 < sqrt (s p q)) by (now apply sqrt_lt_R0).
            assert (SS := sqrt_sqrt (s p q) ltac:(lra)).
            apply is_derive_Reals. apply derivable_pt_lim_opp.
            replace (s p q / (s p q + t ^ 2)) with (sqrt (s p q) * (/ (1 + (t / sqrt (s p q)) ^ 2) * (/ sqrt (s p q)))).
            * apply derivable_pt_lim_scal. apply (derivable_pt_lim_comp (fun t => t / sqrt (s p q)) atan).
              -- apply is_derive_Reals. auto_derive; auto. field. lra.
              -- apply derivable_pt_lim_atan.
            * rewrite <- SS at 4 5. assert (0 <= t ^ 2) by apply pow2_ge_0.
              assert (0 < sqrt (s p q) * sqrt (s p q) + t ^ 2) by nra. field. repeat split; try lra.
        - intros t Ht. assert (0 < t ^ 2) by (apply pow_lt; lra).
          rewrite (bil_ext _ (fun p q => / (1 + / t ^ 2 * s p q) + (-1) * 1)).
          + rewrite bil_addk, bil_scalk, bil_one, Z.
            assert (K := proj2 (psd_inv (/ t ^ 2) ltac:(left; now apply Rinv_0_lt_compat)) ms). lra.
          + intros p q. specialize (Pos p q). assert (0 < t ^ 2 + s p q) by lra. field. repeat split; try lra. }
      rewrite Z0 in H. rewrite (bil_ext _ (fun p q => (-1) * (sqrt (s p q) * atan (INR n / sqrt (s p q))))) in H by (intros; ring).
      rewrite bil_scalk in H. lra. }
    assert (L : is_lim_seq (fun n => bil (fun p q => sqrt (s p q) * atan (INR n / sqrt (s p q))) ms ms)
                  (bil (fun p q => sqrt (s p q) * (PI / 2)) ms ms)).
    { apply (lim_bil ms ms (fun n p q => sqrt (s p q) * atan (INR n / sqrt (s p q)))). intros p q.
      destruct (Req_dec (s p q) 0) as [E|E].
      - rewrite E, sqrt_0, Rmult_0_l. apply is_lim_seq_ext with (fun _ => 0); [intro; ring|apply is_lim_seq_const].
      - apply (is_lim_seq_scal_l _ (sqrt (s p q)) (PI / 2)). apply lim_atan. apply sqrt_lt_R0. specialize (Pos p q). lra. }
    assert (B := is_lim_seq_le _ (fun _ => 0) _ 0 N L (is_lim_seq_const 0)). cbn in B.
    rewrite (bil_ext _ (fun p q => PI / 2 * sqrt (s p q))) in B by (intros; ring). rewrite bil_scalk in B.
    assert (P0 := PI_RGT_0). nra.
  Qed.
  Lemma psd_exp_sqrt c : 0 <= c -> psd (fun p q => exp (- (c * sqrt (s p q)))).
  Proof. intro. apply schoenberg, cnd_scal; auto. apply cnd_sqrt. Qed.
End Cnd.
