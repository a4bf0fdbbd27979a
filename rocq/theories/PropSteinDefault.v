(** * Stein kernels with the default score in floating point arithmetic: C98

    [convert_stein_kernel(X, kernel, None)] wraps a kernel in a Stein kernel whose score function
    is that of the kernel density estimate of [X] with the bandwidth of the kernel
    (score_matching.py:441-475).  KSD does this with the reference data. *)
From Coq Require Import List ZArith Bool Reals Lia Lra.
From Coq Require Import Floats.SpecFloat.
From Flocq Require Import Core.Core IEEE754.BinarySingleNaN.
From Verif Require Import Num Jax DataModel MeanModel UtilModel KernelModel ApproxModel ScoreModel
  SumSpec SumProofs Float FloatProofs2 FloatIdxSpec PropFloat FloatScore PropFloatScore FloatSteinK.
Import ListNotations.
Open Scope R_scope.

(** every entry of the Stein kernel matrix of the data is a finite number: squared exponential
    kernel with bandwidth [len] and output scale [s], at most [2^u]; rows of fewer than [2^r]
    coordinates; the ranges of C97 with [c >= 0] and [l <= 0] *)
Theorem C98_default_stein_kernel :
  forall prec emax (Hp : Prec_gt_0 prec) (Hm : Prec_lt_emax prec emax) (Sm : SumOrder prec emax) T jgrad keq c l t p r u len s0 s
      (X : list (list (binary_float prec emax))) d stein,
    elementary T -> kdm_init (FOpsIEEE prec emax) T len = Ok (KSE len s0) -> score_range c l t p len s0 X ->
    (0 <= c)%Z -> (l <= 0)%Z -> (0 <= u)%Z -> is_finite s = true -> 0 < B2R s <= bpow radix2 u ->
    (forall y, In y X -> length y = d) -> (1 <= r <= prec)%Z -> (Z.of_nat d < 2 ^ r)%Z ->
    let b := (c + 2 - l + p)%Z in (r + u + 2 * b + 4 <= emax)%Z ->
    convert_stein_kernel (FOpsIEEE prec emax) T jgrad keq X (KSE len s) None = Ok stein ->
    forall x y, In x X -> In y X ->
      exists v, m_val (methods (FOpsIEEE prec emax) T jgrad keq stein) x y = Sc v /\ at_most (r + u + 2 * b + 3) v.
Proof.
  intros prec emax Hp Hm Sm T jgrad keq c l t p r u len s0 s X d stein E I R Hc Hl Hu Fs Bs HL Hr Hd b HR CV x y Hx Hy.
  unfold convert_stein_kernel in CV. cbn [length_scale_of] in CV. rewrite I in CV. cbn [bind] in CV. injection CV as <-.
  assert (SC : forall z, In z X -> length (kdm_match (FOpsIEEE prec emax) T jgrad keq (KSE len s0) X z) = length z /\
                           Forall (at_most b) (kdm_match (FOpsIEEE prec emax) T jgrad keq (KSE len s0) X z)).
  { intros z Hz. destruct (C97_score_at_data_partial prec emax Hp Hm Sm T jgrad keq c l t p len s0 X z E I R Hz) as (v & A & B & C).
    - intros w Hw. now rewrite (HL w Hw), (HL z Hz).
    - unfold kdm_match. rewrite A. auto. }
  pose proof (sr_p _ _ _ _ _ _ _ R) as PP.
  apply (stein_am prec emax c l u r b len s T jgrad keq E Hc Hl Hu Hr); auto.
  - unfold b. lia.
  - exact (sr_len _ _ _ _ _ _ _ R).
  - exact (sr_divisor _ _ _ _ _ _ _ R).
  - exact (sr_coord _ _ _ _ _ _ _ R x Hx).
  - exact (sr_coord _ _ _ _ _ _ _ R y Hy).
  - now rewrite (HL x Hx), (HL y Hy).
  - now rewrite (HL x Hx).
Qed.
Print Assumptions C98_default_stein_kernel.
Definition ex_stein : kern F32 :=
  KStein (KSE (f32 1 0) (f32 3 0)) (kdm_match F32Ops score_tops (fun _ z => z) (fun _ _ => false) (KSE (f32 1 0) scale32) ex_rows).
Lemma ex_conv : convert_stein_kernel F32Ops score_tops (fun _ z => z) (fun _ _ => false) ex_rows (KSE (f32 1 0) (f32 3 0)) None = Ok ex_stein.
Proof. unfold convert_stein_kernel. cbn [length_scale_of]. rewrite ex_init. reflexivity. Qed.
Example C98_default_stein_kernel_applies :
  exists v, m_val (methods F32Ops score_tops (fun _ z => z) (fun _ _ => false) ex_stein) [f32 0 0; f32 7 2] [f32 3 0; f32 1 3] = Sc v /\ at_most 25 v.
Proof.
  destruct (f32_exact 3%Z 0%Z ltac:(lia) ltac:(lia) ltac:(lia)) as [F3 V3].
  assert (B3 : 0 < B2R (f32 3 0) <= bpow radix2 2) by (rewrite V3; cbn; lra).
  exact (C98_default_stein_kernel 24 128 _ _ _ score_tops (fun _ z => z) (fun _ _ => false) 5 0 (-1) 2 2 2 (f32 1 0) scale32 (f32 3 0) ex_rows 2
    ex_stein score_elementary ex_init ex_range ltac:(lia) ltac:(lia) ltac:(lia) F3 B3 ex_rows_len ltac:(lia) ltac:(lia) ltac:(lia) ex_conv
    _ _ (or_intror (or_introl eq_refl)) (or_intror (or_intror (or_introl eq_refl)))).
Qed.
