(** * Exact identities of IEEE arithmetic used by the kernels *)
From Coq Require Import List ZArith Bool Reals Lia Lra.
From Coq Require Import Floats.SpecFloat.
From Flocq Require Import Core.Core Plus_error IEEE754.BinarySingleNaN.
From Verif Require Import Num Float MeanModel UtilModel KernelModel KernelProofs6.
Import ListNotations.

Section FloatSym.
  Context (prec emax : Z) {Hprec : Prec_gt_0 prec} {Hmax : Prec_lt_emax prec emax} {Sm : SumOrder prec emax}.
  Notation flt := (binary_float prec emax).
  Notation O := (FOpsIEEE prec emax).

  Lemma Bmult_comm (a b : flt) : Bmult mode_NE a b = Bmult mode_NE b a.
  Proof.
    destruct a as [sa|sa| |sa ma ea Ha], b as [sb|sb| |sb mb eb Hb]; simpl; try reflexivity; try (now rewrite xorb_comm).
    apply B2SF_inj. rewrite !B2SF_SF2B. now rewrite xorb_comm, Pos.mul_comm, Z.add_comm.
  Qed.
  Lemma Bplus_comm (a b : flt) : Bplus mode_NE a b = Bplus mode_NE b a.
  Proof.
    destruct a as [sa|sa| |sa ma ea Ha], b as [sb|sb| |sb mb eb Hb]; simpl; try reflexivity;
      try (destruct sa, sb; reflexivity).
    rewrite Z.min_comm. f_equal. unfold Fplus_naive. apply Z.add_comm.
  Qed.

  (** rounding to nearest even commutes with the change of sign *)
  Lemma round_aux_opp sx m e l :
    binary_round_aux prec emax mode_NE (negb sx) m e l = SFopp (binary_round_aux prec emax mode_NE sx m e l).
  Proof.
    unfold binary_round_aux. destruct (shr_fexp _ _ _ _ _) as [mrs e']. unfold choice_mode.
    destruct (shr_fexp _ _ _ _ _) as [mrs' e'']. unfold binary_fit_aux.
    destruct (shr_m mrs') as [|p|p]; [|destruct (Z.leb _ _)|]; reflexivity.
  Qed.
  Lemma B2SF_opp (a : flt) : B2SF (Bopp a) = SFopp (B2SF a).
  Proof. destruct a; reflexivity. Qed.
  Lemma normalize_opp z e : z <> 0%Z ->
    binary_normalize prec emax _ _ mode_NE (- z) e false = Bopp (binary_normalize prec emax _ _ mode_NE z e false).
  Proof.
    intro N. apply B2SF_inj. rewrite B2SF_opp. destruct z as [|p|p]; [contradiction| |]; simpl; rewrite !B2SF_SF2B;
      unfold binary_round; destruct (shl_align_fexp _ _ p e) as [mz ez].
    - apply (round_aux_opp false).
    - apply (round_aux_opp true).
  Qed.
  Lemma naive_opp sx mx ex sy my ey ez :
    Fplus_naive (negb sx) mx ex (negb sy) my ey ez = (- Fplus_naive sx mx ex sy my ey ez)%Z.
  Proof. unfold Fplus_naive. destruct sx, sy; cbn [negb cond_Zopp]; lia. Qed.
  Lemma naive_comm sx mx ex sy my ey ez : Fplus_naive sx mx ex sy my ey ez = Fplus_naive sy my ey sx mx ex ez.
  Proof. unfold Fplus_naive. apply Z.add_comm. Qed.

  (** [b - a] is [-(a - b)], except that both are [+0] when [a = b] *)
  Lemma minus_swap (a b : flt) :
    Bminus mode_NE b a = Bopp (Bminus mode_NE a b) \/
    (Bminus mode_NE a b = B754_zero false /\ Bminus mode_NE b a = B754_zero false).
  Proof.
    destruct a as [sa|sa| |sa ma ea Ha], b as [sb|sb| |sb mb eb Hb]; simpl; try (left; reflexivity);
      try (destruct sa, sb; simpl; auto; fail); try (left; now rewrite negb_involutive).
    rewrite (Z.min_comm eb ea). set (ez := Z.min ea eb).
    assert (E : Fplus_naive sb mb eb (negb sa) ma ea ez = (- Fplus_naive sa ma ea (negb sb) mb eb ez)%Z).
    { rewrite naive_comm, <- (negb_involutive sb) at 1. apply naive_opp. }
    rewrite E. destruct (Z.eq_dec (Fplus_naive sa ma ea (negb sb) mb eb ez) 0) as [Z|N].
    - right. rewrite Z. split; reflexivity.
    - left. now apply normalize_opp.
  Qed.
  Lemma mult_opp_opp (a b : flt) : Bmult mode_NE (Bopp a) (Bopp b) = Bmult mode_NE a b.
  Proof.
    destruct a as [sa|sa| |sa ma ea Ha], b as [sb|sb| |sb mb eb Hb]; simpl; try reflexivity; try (destruct sa, sb; reflexivity).
    apply B2SF_inj. rewrite !B2SF_SF2B. f_equal. destruct sa, sb; reflexivity.
  Qed.
  Lemma square_swap (a b : flt) :
    Bmult mode_NE (Bminus mode_NE a b) (Bminus mode_NE a b) = Bmult mode_NE (Bminus mode_NE b a) (Bminus mode_NE b a).
  Proof. destruct (minus_swap a b) as [->|[-> ->]]; [now rewrite mult_opp_opp|reflexivity]. Qed.

  Lemma dot_sym (x y : list flt) : fdot O x y = fdot O y x.
  Proof.
    unfold fdot. f_equal. revert y. induction x as [|a x IH]; intros [|b y]; simpl; auto.
    f_equal; [apply Bmult_comm|apply IH].
  Qed.
  Lemma sqd_swap (x y : list flt) : squared_distance O x y = squared_distance O y x.
  Proof.
    unfold squared_distance, fdot. f_equal. revert y. induction x as [|a x IH]; intros [|b y]; simpl; auto.
    f_equal; [apply square_swap|apply IH].
  Qed.
  Lemma norm2_swap (x y : list flt) : norm2 O (difference O x y) = norm2 O (difference O y x).
  Proof. unfold norm2. f_equal. apply sqd_swap. Qed.

  (** absolute values *)
  Lemma abs_opp (a : flt) : fabs O (Bopp a) = fabs O a.
  Proof. destruct a as [[]|[]| |[] ma ea Ha]; reflexivity. Qed.
  Lemma norm1_swap (x y : list flt) : norm1 O (difference O x y) = norm1 O (difference O y x).
  Proof.
    unfold norm1. f_equal. revert y. induction x as [|a x IH]; intros [|b y]; simpl; auto. f_equal; [|apply IH].
    destruct (minus_swap a b) as [->|[-> ->]]; [now rewrite abs_opp|reflexivity].
  Qed.

  Context (T : TOps flt) (jgrad : (list flt -> flt) -> list flt -> list flt) (keq : kern flt -> kern flt -> bool).
  Lemma kernel_swap k x y : stein_free k ->
    m_val (methods O T jgrad keq k) x y = m_val (methods O T jgrad keq k) y x.
  Proof.
    induction k; cbn [stein_free methods const_meth linear_meth poly_meth exp_meth lap_meth se_meth pcimq_meth rq_meth
      auto_meth per_meth poisson_meth add_meth prod_meth pow_meth m_val]; intro S; auto; try contradiction;
      unfold lap_val, se_val, pcimq_val, rq_val, matern_val;
      rewrite ?(dot_sym x y), ?(sqd_swap x y), ?(norm2_swap x y), ?(norm1_swap x y); auto.
    - destruct S. now rewrite IHk1, IHk2.
    - destruct S. now rewrite IHk1, IHk2.
    - now rewrite IHk.
  Qed.
End FloatSym.
