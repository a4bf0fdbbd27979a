(** * The Gaussian integral, one-dimensional and iterated *)
From Coq Require Import List ZArith Reals Lra Lia.
From Coquelicot Require Import Coquelicot.
From Verif Require Import RSum.
Import ListNotations.
Open Scope R_scope.

Definition gauss (t : R) : R := exp (- t ^ 2).
Definition gF (x : R) : R := RInt gauss 0 x.
Definition gH (x : R) : R := RInt (fun t => exp (- x ^ 2 * (1 + t ^ 2)) / (1 + t ^ 2)) 0 1.

Lemma gauss_cont x : continuous gauss x.
Proof. apply (ex_derive_continuous (V := R_NormedModule)). unfold gauss. auto_derive. exact I. Qed.
Lemma gauss_int a b : ex_RInt gauss a b.
Proof. apply (ex_RInt_continuous (V := R_CompleteNormedModule)). intros. apply gauss_cont. Qed.
Lemma gF_derive x : is_derive gF x (gauss x).
Proof.
  apply (is_derive_RInt (V := R_NormedModule) gauss gF 0 x); [|apply gauss_cont].
  apply filter_forall. intro y. apply (RInt_correct (V := R_CompleteNormedModule)), gauss_int.
Qed.
Lemma sq_pos t : 0 < 1 + t ^ 2. Proof. nra. Qed.
Lemma gH_integrand_derive x t : is_derive (fun u => exp (- u ^ 2 * (1 + t ^ 2)) / (1 + t ^ 2)) x (- 2 * x * exp (- x ^ 2 * (1 + t ^ 2))).
Proof.
  pose proof (sq_pos t). auto_derive; [lra|]. change (t * (t * 1)) with (t ^ 2). change (x * (x * 1)) with (x ^ 2).
  change (@eq (AbsRing.sort R_AbsRing)) with (@eq R). set (e := exp _). field. lra.
Qed.
Lemma gH_derive x : is_derive gH x (- 2 * gauss x * gF x).
Proof.
  unfold gH.
  evar_last. apply (is_derive_RInt_param (fun u t => exp (- u ^ 2 * (1 + t ^ 2)) / (1 + t ^ 2)) 0 1 x).
  - apply filter_forall. intros u t _. eexists. apply gH_integrand_derive.
  - intros t _. apply continuity_2d_pt_ext with (fun u v => - 2 * u * exp (- u ^ 2 * (1 + v ^ 2))).
    { intros u v. symmetry. apply is_derive_unique, gH_integrand_derive. }
    apply continuity_2d_pt_filterlim.
    assert (F : forall f : R * R -> R, continuous f (x, t) -> filterlim (fun z => f (fst z, snd z)) (locally (x, t)) (locally (f (x, t)))).
    { intros f Hf. apply filterlim_ext with f; [intros [a b]; reflexivity|exact Hf]. }
    apply (F (fun z => - 2 * fst z * exp (- fst z ^ 2 * (1 + snd z ^ 2)))).
    apply (continuous_mult (K := R_AbsRing) (fun z => - 2 * fst z) (fun z => exp (- fst z ^ 2 * (1 + snd z ^ 2)))).
    + apply (continuous_scal_r (K := R_AbsRing) (V := R_NormedModule) (- 2) (fun z : R * R => fst z)). apply continuous_fst.
    + apply (continuous_comp (fun z : R * R => - fst z ^ 2 * (1 + snd z ^ 2)) exp).
      2: { apply (ex_derive_continuous (V := R_NormedModule)). auto_derive. exact I. }
      apply (continuous_mult (K := R_AbsRing) (fun z : R * R => - fst z ^ 2) (fun z => 1 + snd z ^ 2)).
      * apply (continuous_comp (fun z : R * R => fst z) (fun u => - u ^ 2)); [apply continuous_fst|].
        apply (ex_derive_continuous (V := R_NormedModule)). auto_derive. exact I.
      * apply (continuous_comp (fun z : R * R => snd z) (fun u => 1 + u ^ 2)); [apply continuous_snd|].
        apply (ex_derive_continuous (V := R_NormedModule)). auto_derive. exact I.
  - apply filter_forall. intro y. apply (ex_RInt_continuous (V := R_CompleteNormedModule)). intros z _.
    apply (ex_derive_continuous (V := R_NormedModule)). pose proof (sq_pos z). auto_derive. lra.
  - rewrite (RInt_ext _ (fun t => scal (- 2 * gauss x) (scal x (gauss (x * t + 0))))).
    2: { intros t _. transitivity (- 2 * x * exp (- x ^ 2 * (1 + t ^ 2))); [apply is_derive_unique, gH_integrand_derive|]. unfold scal, gauss; cbn -[pow]. unfold mult; cbn -[pow].
         replace (- x ^ 2 * (1 + t ^ 2)) with (- x ^ 2 + - (x * t + 0) ^ 2) by ring. rewrite exp_plus. ring. }
    etransitivity; [apply (RInt_scal (V := R_CompleteNormedModule) (fun t => scal x (gauss (x * t + 0))) 0 1 (- 2 * gauss x))|].
    { apply (ex_RInt_scal (V := R_NormedModule) (fun t => gauss (x * t + 0))).
         apply (ex_RInt_continuous (V := R_CompleteNormedModule)). intros z _. apply (ex_derive_continuous (V := R_NormedModule)). unfold gauss. auto_derive. exact I. }
    assert (L := RInt_comp_lin (V := R_CompleteNormedModule) gauss x 0 0 1 (gauss_int _ _)).
    assert (E0 : (x : R) * 0 + 0 = 0) by (cbn; change (AbsRing.sort R_AbsRing) with R in *; lra).
    assert (E1 : (x : R) * 1 + 0 = x) by (change (AbsRing.sort R_AbsRing) with R in *; lra).
    rewrite E0, E1 in L. fold (gF x) in L.
    exact (f_equal (Rmult (- 2 * gauss x)) L).
Qed.
Lemma gH_0 : gH 0 = PI / 4.
Proof.
  unfold gH. rewrite (RInt_ext _ (fun t => / (1 + t ^ 2))).
  2: { intros t _. replace (- 0 ^ 2 * (1 + t ^ 2)) with 0 by ring. rewrite exp_0. apply Rmult_1_l. }
  assert (I : is_RInt (fun t => / (1 + t ^ 2)) 0 1 (minus (atan 1) (atan 0))).
  { apply (is_RInt_derive (V := R_CompleteNormedModule) atan).
    - intros t _. apply is_derive_Reals. apply derivable_pt_lim_atan.
    - intros t _. apply (ex_derive_continuous (V := R_NormedModule)). pose proof (sq_pos t). auto_derive. lra. }
  rewrite (is_RInt_unique _ _ _ _ I), atan_1, atan_0. unfold minus, plus, opp; cbn. lra.
Qed.
Lemma gF_0 : gF 0 = 0. Proof. unfold gF. apply (RInt_point (V := R_CompleteNormedModule)). Qed.
Lemma gF_gH x : gF x ^ 2 + gH x = PI / 4.
Proof.
  assert (D : forall y, is_derive (fun u => gF u ^ 2 + gH u) y 0).
  { intro y. evar_last. apply (is_derive_plus (K := R_AbsRing) (V := R_NormedModule) (fun u => gF u ^ 2) gH).
    - apply (is_derive_pow gF 2 y (gauss y)), gF_derive.
    - apply gH_derive.
    - unfold plus; cbn. ring. }
  destruct (MVT_gen (fun u => gF u ^ 2 + gH u) 0 x (fun _ => 0)) as (c & _ & E).
  - intros y _. apply D.
  - intros y _. apply continuity_pt_filterlim. apply (ex_derive_continuous (V := R_NormedModule) (fun u => gF u ^ 2 + gH u) y). eexists. apply D.
  - rewrite gF_0, gH_0 in E. lra.
Qed.
Lemma gH_bounds x : 0 <= gH x <= gauss x.
Proof.
  assert (I : ex_RInt (fun t => exp (- x ^ 2 * (1 + t ^ 2)) / (1 + t ^ 2)) 0 1).
  { apply (ex_RInt_continuous (V := R_CompleteNormedModule)). intros z _.
    apply (ex_derive_continuous (V := R_NormedModule)). pose proof (sq_pos z). auto_derive. lra. }
  split.
  - apply RInt_ge_0; [lra|exact I|]. intros t _. apply Rlt_le, Rdiv_lt_0_compat; [apply exp_pos|apply sq_pos].
  - unfold gH. replace (gauss x) with (RInt (fun _ : R => gauss x) 0 1).
    2: { rewrite RInt_const. unfold scal; cbn. unfold mult; cbn. ring. }
    apply RInt_le; [lra|exact I|apply ex_RInt_const|]. intros t _. pose proof (sq_pos t).
    assert (A : exp (- x ^ 2 * (1 + t ^ 2)) <= gauss x).
    { unfold gauss. destruct (Req_dec (x ^ 2 * t ^ 2) 0) as [Z|Z].
      - right. f_equal. lra.
      - left. apply exp_increasing. assert (0 <= x ^ 2 * t ^ 2) by (apply Rmult_le_pos; apply pow2_ge_0). nra. }
    apply Rle_div_l; [lra|]. pose proof (exp_pos (- x ^ 2)). fold (gauss x) in *. assert (0 < gauss x) by apply exp_pos. pose proof (pow2_ge_0 t). nra.
Qed.
Lemma gauss_lim : is_lim gauss p_infty 0.
Proof.
  apply is_lim_ext_loc with (fun x => exp (- (x ^ 2))); [exists 0; reflexivity|].
  apply (is_lim_comp exp (fun x => - x ^ 2) p_infty 0 m_infty); [apply is_lim_exp_m| |exists 0; discriminate].
  apply (is_lim_opp (fun x => x ^ 2) p_infty p_infty).
  apply (is_lim_ext (fun x => x * x)); [intro; ring|].
  apply (is_lim_mult (fun x => x) (fun x => x) p_infty p_infty p_infty); [apply is_lim_id|apply is_lim_id|exact I].
Qed.
Lemma gF_lim : is_lim gF p_infty (sqrt PI / 2).
Proof.
  assert (HL : is_lim gH p_infty 0).
  { apply (is_lim_le_le_loc (fun _ => 0) gauss gH p_infty 0).
    - exists 0. intros x _. apply gH_bounds.
    - apply is_lim_const.
    - apply gauss_lim. }
  apply is_lim_ext_loc with (fun x => sqrt (PI / 4 - gH x)).
  { exists 0. intros x Hx. replace (PI / 4 - gH x) with (gF x ^ 2) by (pose proof (gF_gH x); lra).
    apply sqrt_pow2. unfold gF. apply RInt_ge_0; [lra|apply gauss_int|]. intros t _. apply Rlt_le, exp_pos. }
  replace (sqrt PI / 2) with (sqrt (PI / 4 - 0)).
  2: { rewrite Rminus_0_r. pose proof PI_RGT_0. rewrite sqrt_div_alt by lra. replace 4 with (2 ^ 2) by ring. rewrite sqrt_pow2 by lra. reflexivity. }
  apply (is_lim_comp_continuous (fun x => PI / 4 - gH x) sqrt p_infty (PI / 4 - 0)).
  - apply (is_lim_minus (fun _ => PI / 4) gH p_infty (PI / 4) 0); [apply is_lim_const|exact HL|reflexivity].
  - apply continuity_pt_filterlim. apply continuity_pt_sqrt. pose proof PI_RGT_0. lra.
Qed.
Lemma gF_odd x : gF (- x) = - gF x.
Proof.
  assert (D : forall y, is_derive (fun u => gF (- u) + gF u) y 0).
  { intro y. evar_last. apply (is_derive_plus (K := R_AbsRing) (V := R_NormedModule) (fun u => gF (- u)) gF).
    - apply (is_derive_comp (K := R_AbsRing) (V := R_NormedModule) gF Ropp y (gauss (- y)) (- 1)); [apply gF_derive|].
      auto_derive; [exact I|reflexivity].
    - apply gF_derive.
    - unfold plus, scal; cbn. unfold mult; cbn. unfold gauss. replace ((- y) ^ 2) with (y ^ 2) by ring. ring. }
  destruct (MVT_gen (fun u => gF (- u) + gF u) 0 x (fun _ => 0)) as (c & _ & E).
  - intros y _. apply D.
  - intros y _. apply continuity_pt_filterlim. apply (ex_derive_continuous (V := R_NormedModule) (fun u => gF (- u) + gF u) y). eexists. apply D.
  - replace (- 0) with 0 in E by ring. rewrite gF_0 in E. lra.
Qed.
Lemma gF_lim_m : is_lim gF m_infty (- (sqrt PI / 2)).
Proof.
  apply (is_lim_ext (fun x => - gF (- x))); [intro x; rewrite gF_odd; ring|].
  apply (is_lim_opp (fun x => gF (- x)) m_infty (sqrt PI / 2)).
  apply (is_lim_comp gF Ropp m_infty (sqrt PI / 2) p_infty gF_lim); [|exists 0; discriminate].
  apply (is_lim_opp (fun x => x) m_infty m_infty), is_lim_id.
Qed.

(** ** The integral of a Gaussian with any centre and width *)
Lemma gauss_integral c m : 0 < c ->
  is_RInt_gen (fun u => exp (- c * (u - m) ^ 2)) (Rbar_locally m_infty) (Rbar_locally p_infty) (sqrt (PI / c)).
Proof.
  intro Hc. set (r := sqrt c). assert (Hr : 0 < r) by now apply sqrt_lt_R0. assert (Er : r * r = c) by (apply sqrt_sqrt; lra).
  set (G := fun u => / r * gF (r * (u - m))).
  assert (D : forall u, is_derive G u (exp (- c * (u - m) ^ 2))).
  { intro u. evar_last. apply (is_derive_scal (fun u => gF (r * (u - m))) u (/ r) (r * gauss (r * (u - m)))).
    - apply (is_derive_comp (K := R_AbsRing) (V := R_NormedModule) gF (fun u => r * (u - m)) u (gauss (r * (u - m))) r); [apply gF_derive|].
      auto_derive; [exact I|ring].
    - unfold mult; cbn -[pow]. unfold gauss. replace ((r * (u - m)) ^ 2) with (r * r * (u - m) ^ 2) by ring. rewrite Er.
      rewrite Ropp_mult_distr_l. field. lra. }
  assert (L : is_lim (fun u => r * (u - m)) p_infty p_infty /\ is_lim (fun u => r * (u - m)) m_infty m_infty).
  { assert (EP : Rbar_mult r p_infty = p_infty) by (apply is_Rbar_mult_unique, is_Rbar_mult_sym, is_Rbar_mult_p_infty_pos; exact Hr).
    assert (EM : Rbar_mult r m_infty = m_infty) by (apply is_Rbar_mult_unique, is_Rbar_mult_sym, is_Rbar_mult_m_infty_pos; exact Hr).
    split.
    - rewrite <- EP at 2. apply (is_lim_mult (fun _ => r) (fun u => u - m) p_infty r p_infty).
      + apply is_lim_const.
      + apply (is_lim_minus (fun u => u) (fun _ => m) p_infty p_infty m); [apply is_lim_id|apply is_lim_const|reflexivity].
      + cbn. lra.
    - rewrite <- EM at 2. apply (is_lim_mult (fun _ => r) (fun u => u - m) m_infty r m_infty).
      + apply is_lim_const.
      + apply (is_lim_minus (fun u => u) (fun _ => m) m_infty m_infty m); [apply is_lim_id|apply is_lim_const|reflexivity].
      + cbn. lra. }
  replace (sqrt (PI / c)) with (/ r * (sqrt PI / 2) - / r * (- (sqrt PI / 2))).
  2: { pose proof PI_RGT_0. rewrite sqrt_div_alt by exact Hc. fold r. field. lra. }
  apply is_RInt_gen_ext with (Derive G).
  { apply filter_forall. intros [a b] x _. apply is_derive_unique, D. }
  apply is_RInt_gen_Derive.
  - apply filter_forall. intros [a b] x _. eexists. apply D.
  - apply filter_forall. intros [a b] x _. apply continuous_ext with (fun u => exp (- c * (u - m) ^ 2)).
    { intro u. symmetry. apply is_derive_unique, D. }
    apply (ex_derive_continuous (V := R_NormedModule)). auto_derive. exact I.
  - apply (is_lim_scal_l (fun u => gF (r * (u - m))) (/ r) m_infty (- (sqrt PI / 2))).
    apply (is_lim_comp gF (fun u => r * (u - m)) m_infty _ m_infty gF_lim_m); [apply L|exists 0; discriminate].
  - apply (is_lim_scal_l (fun u => gF (r * (u - m))) (/ r) p_infty (sqrt PI / 2)).
    apply (is_lim_comp gF (fun u => r * (u - m)) p_infty _ p_infty gF_lim); [apply L|exists 0; discriminate].
Qed.
