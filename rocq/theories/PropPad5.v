(** * The default kernel Stein discrepancy for every block size: C99 continued *)
From Coq Require Import List ZArith Bool Reals Lia Lra.
From Coq Require Import Floats.SpecFloat.
From Flocq Require Import Core.Core IEEE754.BinarySingleNaN.
From Verif Require Import Num Jax RSum DataModel MeanModel MetricModel UtilModel KernelModel ApproxModel ScoreModel ThinModel KsdModel
  MeanSpec SumSpec SumProofs Float FloatProofs2 FloatIdxSpec FloatErrSpec PropFloat PropFloatMMD PropFloatJMMD FloatScore PropFloatScore FloatSteinK PropSteinDefault FloatPad.
From Verif Require Import PropPad PropPad2 PropPad3 PropPad4.
Import ListNotations.
Open Scope R_scope.

(** if the zero row, which fills up the last block, is one of the data points, the discrepancy is
    finite and accurate for every block size *)
Theorem C99_origin_row_partial :
  forall prec emax (Hp : Prec_gt_0 prec) (Hm : Prec_lt_emax prec emax) (Sm : SumOrder prec emax) T jgrad keq jac kde c l t p r u a L len s0 s
      (X : list (list (binary_float prec emax))) wx d stein {Y} p0 (y0 : Y) ys v sy bs b0 b1,
    elementary T -> kdm_init (FOpsIEEE prec emax) T len = Ok (KSE len s0) -> score_range c l t p len s0 X ->
    (0 <= c)%Z -> (l <= 0)%Z -> (0 <= u)%Z -> is_finite s = true -> 0 < B2R s <= bpow radix2 u ->
    (forall y, In y X -> length y = d) -> (1 <= r <= prec)%Z -> (Z.of_nat d < 2 ^ r)%Z ->
    let e := (r + u + 2 * (c + 2 - l + p) + 3)%Z in (a + e + 2 <= emax)%Z -> (2 * a < prec)%Z -> mean_room prec emax a e (L + 2) ->
    convert_stein_kernel (FOpsIEEE prec emax) T jgrad keq X (KSE len s) None = Ok stein ->
    weighted_data a ys v -> incl ys X ->
    bs = BTwo b0 b1 \/ bs = BOne b0 /\ b1 = b0 ->
    let m := length ys in
    In p0 X ->
    (roundings m m (block_used m b0) (block_used m b1) <= L)%nat ->
    let exact := sqrt (wavg (fun x => wavg (fun y => B2R (unsc (FOpsIEEE prec emax) (m_val (methods (FOpsIEEE prec emax) T jgrad keq stein) x y))) ys (map B2R v))
      ys (map B2R v)) in
    exists z, ksd (FOpsIEEE prec emax) T jgrad keq jac kde p0 y0 (KSE len s) None false false bs (mkData X wx None) (mkData ys v sy) = Ok z /\
      is_finite z = true /\ 0 <= B2R z /\ Rabs (B2R z - exact) <= 2 * sqrt (14 * INR (L + 2) * bpow radix2 (e - prec)).
Proof.
  intros prec emax Hp Hm Sm T jgrad keq jac kde c l t p r u a L len s0 s X wx d stein Y p0 y0 ys v sy bs b0 b1
    E I R Hc Hl Hu Fs Bs HL Hr Hd e Ha1 Ha2 HR CV HY HI Hbs m HO HRd exact.
  set (k := fun x y => unsc (FOpsIEEE prec emax) (m_val (methods (FOpsIEEE prec emax) T jgrad keq stein) x y)) in *.
  assert (K : forall x y, In x (p0 :: ys) -> In y (p0 :: ys) -> at_most e (k x y)).
  { assert (Q : forall x, In x (p0 :: ys) -> In x X) by (intros x [<-|Hx]; [exact HO|now apply HI]). intros x y Hx Hy.
    destruct (C98_default_stein_kernel prec emax Hp Hm Sm T jgrad keq c l t p r u len s0 s X d stein E I R Hc Hl Hu Fs Bs HL Hr Hd) with (x := x) (y := y) as (w & W & A); auto.
    { pose proof (mr_size _ _ _ _ _ HR). fold e. lia. }
    unfold k. rewrite W. exact A. }
  assert (FZ : Forall (at_most e) (map (fun _ => f0 (FOpsIEEE prec emax)) ys)).
  { apply Forall_forall. intros w Hw. apply in_map_iff in Hw as [x [<- _]]. split; [reflexivity|]. cbn [f0 FOpsIEEE B2R]. rewrite Rabs_R0. apply bpow_ge_0. }
  destruct (C85_ksd_accurate prec emax Hp Hm Sm a e L HR Ha1 Ha2 p0 y0 (fun _ => k) (fun _ _ l => map (fun _ => f0 (FOpsIEEE prec emax)) l)
    (fun _ l => map (fun _ => f0 (FOpsIEEE prec emax)) l) false false X wx ys v sy bs b0 b1 HY K (map_length _ _) FZ (map_length _ _) FZ Hbs HRd) as (z & Z1 & Z2 & Z3 & Z4 & _).
  exists z. rewrite Rplus_0_r, Rminus_0_r in Z4. split; [|split; [exact Z2|split; [exact Z3|exact Z4]]].
  rewrite <- Z1. unfold ksd, ksd_compute. cbn [unpack2 d_y d_x d_w bind]. rewrite CV. cbn [bind]. reflexivity.
Qed.
Print Assumptions C99_origin_row_partial.

(** the zero row and two points near 100 in binary32, bandwidth 1, blocks of two: in contrast to
    C99_ksd_refuted the discrepancy is finite *)
Example C99_origin_row_applies : forall (T : TOps F32) jgrad keq jac kde wx, elementary T -> fpi T = pi32 ->
  exists z, ksd F32Ops T jgrad keq jac kde [f0 F32Ops] tt (KSE (f32 1 0) (f32 1 0)) None false false (BOne (Some 2%Z)) (mkData origin_rows wx None)
    (mkData origin_rows (repeat (f1 F32Ops) 3) None) = Ok z /\ is_finite z = true.
Proof.
  intros T jgrad keq jac kde wx E P. set (ones := repeat (f1 F32Ops) 3).
  assert (I : kdm_init F32Ops T (f32 1 0) = Ok (KSE (f32 1 0) scale32)) by (unfold kdm_init; rewrite P; fold scale32; exact scale32_ok).
  destruct (f32_exact 1%Z 0%Z ltac:(lia) ltac:(lia) ltac:(lia)) as [F1 V1].
  assert (B1 : 0 < B2R (f32 1 0) <= bpow radix2 0) by (rewrite V1; cbn; lra).
  set (k := kdm_match F32Ops T jgrad keq (KSE (f32 1 0) scale32) origin_rows).
  assert (CV : convert_stein_kernel F32Ops T jgrad keq origin_rows (KSE (f32 1 0) (f32 1 0)) None = Ok (KStein (KSE (f32 1 0) (f32 1 0)) k)).
  { unfold convert_stein_kernel. cbn [length_scale_of]. rewrite I. reflexivity. }
  assert (WD : weighted_data 10 origin_rows ones) by (apply (ones_data origin_rows); [discriminate|cbn; lia]).
  assert (HR : mean_room 24 128 10 26 (21 + 2)) by (constructor; lia).
  assert (OL : forall y, In y origin_rows -> length y = 1%nat) by (intros y Hy; repeat destruct Hy as [<-|Hy]; try destruct Hy; reflexivity).
  destruct (C99_origin_row_partial 24 128 _ _ _ T jgrad keq jac kde 7 0 (-1) 2 1 0 10 21 (f32 1 0) scale32 (f32 1 0) origin_rows wx 1 _
    [f0 F32Ops] tt origin_rows ones None (BOne (Some 2%Z)) (Some 2%Z) (Some 2%Z) E I origin_range ltac:(lia) ltac:(lia) ltac:(lia) F1 B1 OL ltac:(lia) ltac:(lia)
    ltac:(lia) ltac:(lia) HR CV WD (incl_refl _) (or_intror (conj eq_refl eq_refl)) (or_introl eq_refl)) as (z & Z1 & Z2 & _); [vm_compute; lia|].
  exists z. auto.
Qed.
