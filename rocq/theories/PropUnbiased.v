(** * Property theorems: who is kept by random halving (C95)

    As in C67, [s us] is a KernelThinning solver whose key makes [us] the uniform numbers
    drawn by the successive swap decisions of one call of [kt_half]; expectations are over
    [us] independent and uniform on the unit interval ([expect], HalvingSpec). *)
From Coq Require Import List ZArith QArith Reals Lra Lia Bool Permutation.
From Verif Require Import Num Jax RSum JaxFacts DataModel MeanModel MeanSpec GreedySpec GreedyModel MetricSpec MetricModel
  MetricProofs PropMetric PropGreedy KTModel KTSpec KTProofs KTProofs2 KTProofs4 PropKT RateProofs PropRate HalvingSpec HalvingProofs
  MapReduceProofs2 PropHalving.
From Coquelicot Require Import Coquelicot.
Import ListNotations.
Open Scope R_scope.

(** ** an odd functional of symmetric decisions has expectation zero *)
Lemma clip01_sym p : clip01 (1 - p) = 1 - clip01 p.
Proof. unfold clip01, Rmax, Rmin. repeat destruct (Rle_dec _ _); lra. Qed.
Lemma value_odd (prob G : list bool -> R) :
  (forall h, prob (map negb h) = 1 - prob h) -> (forall h, G (map negb h) = - G h) ->
  forall n h, value prob G n (map negb h) = - value prob G n h.
Proof.
  intros HP HG n. induction n as [|n IH]; intro h; cbn [value]; [apply HG|].
  assert (A : map negb h ++ [true] = map negb (h ++ [false])) by (now rewrite map_app).
  assert (B : map negb h ++ [false] = map negb (h ++ [true])) by (now rewrite map_app).
  rewrite A, B, !IH, HP, clip01_sym. ring.
Qed.
Lemma expect_shift n : forall F v c, expect n F v -> expect n (fun us => F us + c) (v + c).
Proof.
  induction n as [|n IH]; intros F v c E; cbn in *; [now rewrite E|].
  destruct E as (g & G1 & G2). exists (fun u => g u + c). split; [intros u Hu; apply IH; now apply G1|].
  assert (C : is_RInt (fun _ : R => c) 0 1 c).
  { assert (H : is_RInt (fun _ : R => c) 0 1 ((1 - 0) * c)) by exact (is_RInt_const (V := R_NormedModule) 0 1 c).
    replace ((1 - 0) * c) with c in H by ring. exact H. }
  exact (is_RInt_plus g (fun _ => c) 0 1 v c G2 C).
Qed.
Lemma prob_negb {P} (k : P -> P -> R) x a h : prob k x a (map negb h) = 1 - prob k x a h.
Proof.
  unfold prob, alpha. rewrite map_length, psi_negb. unfold Rdiv. lra.
Qed.

(** ** how far the kept rows are from half of the whole *)
Definition surplus (g : nat -> R) (h : list bool) : R :=
  Rsum (map g (chosen h)) - Rsum (map g (seq 0 (2 * length h))) / 2.
Lemma surplus_snoc g h d : surplus g (h ++ [d])
  = surplus g h + (if d then 1 else -1) * ((g (2 * length h + 1)%nat - g (2 * length h)%nat) / 2).
Proof.
  unfold surplus. rewrite chosen_snoc, app_length. cbn [length]. set (t := length h).
  replace (2 * (t + 1))%nat with (2 * t + 2)%nat by lia. rewrite seq_app, !map_app, !Rsum_app. cbn [seq map Rsum Nat.add].
  unfold pair_first. replace (S (2 * t)) with (2 * t + 1)%nat by lia. destruct d; lra.
Qed.
Lemma surplus_negb g h : surplus g (map negb h) = - surplus g h.
Proof.
  induction h as [|d h IH] using rev_ind; [unfold surplus; cbn; lra|].
  rewrite map_app. cbn [map]. rewrite !surplus_snoc, IH, map_length. destruct d; cbn [negb]; lra.
Qed.

(** ** the decisions of one call of [kt_half] *)
Lemma run_is_walk {P K} (p0 : P) (s : kthin ER P K) k delta xs n us :
  kt_sqrt s = kE k -> kt_delta s = Fin delta -> 0 < delta <= 2 ->
  (forall r, 0 < r -> kt_log s (Fin r) = Fin (ln r)) -> draws_are s us -> length us = n ->
  length xs = (2 * n)%nat ->
  let x i := nth i xs p0 in
  (forall i, (i < n)%nat -> let y := x (2 * i)%nat in let z := x (2 * i + 1)%nat in 0 < k y y + k z z - 2 * k y z) ->
  let a i := thresh delta (pair_b k (x (2 * i)%nat) (x (2 * i + 1)%nat)) (sigma_at k delta x i) in
  map (run_decision EROps p0 s xs n) (seq 0 n) = walk (prob k x a) us [].
Proof.
  intros S1 S2 Hd S3 (u & U1 & U2) HU1 HL x Hgap a. set (fl := run_decision EROps p0 s xs n).
  apply walk_spec; [cbn; now rewrite map_length, seq_length|reflexivity|].
  cbn [length Nat.add]. intros i Hi.
  rewrite (nth_indep _ false (fl 0%nat)) by (rewrite map_length, seq_length; lia). rewrite map_nth, seq_nth by lia. cbn [Nat.add].
  assert (FS : firstn i (map fl (seq 0 n)) = map fl (seq 0 i)).
  { rewrite firstn_map. f_equal. replace n with (i + (n - i))%nat by lia. rewrite seq_app, firstn_app, seq_length, Nat.sub_diag, firstn_O, app_nil_r.
    apply firstn_all2. rewrite seq_length. lia. }
  rewrite FS. pose proof (walk_decision p0 s k delta u xs n S1 S2 Hd S3 U1 HL Hgap i ltac:(lia)) as D. fold fl in D.
  unfold key_at in D. rewrite U2 in D by lia.
  unfold prob. rewrite alpha_imbalance, map_length, seq_length, (chosen_of x).
  assert (FX : firstn (2 * i) xs = map x (seq 0 (2 * i))).
  { unfold x. rewrite <- (GreedyProofs2.map_nth_seq xs p0) at 1. rewrite firstn_map, HL. f_equal.
    replace (2 * n)%nat with (2 * i + (2 * n - 2 * i))%nat by lia. rewrite seq_app, firstn_app, seq_length, Nat.sub_diag, firstn_O, app_nil_r.
    apply firstn_all2. rewrite seq_length. lia. }
  rewrite FX in D. unfold rle. fold (a i). destruct (Rle_dec _ _) as [L|L].
  - apply D. exact L.
  - destruct (fl i); [|reflexivity]. exfalso. apply L, D. reflexivity.
Qed.

(** One call of [kt_half] is fair: whatever is measured about the rows, its average over
    either half has expectation equal to its average over the whole data set.  With [g]
    the indicator of one row, every row is in each half with probability one half. *)
Theorem C95_halving_unbiased_partial :
  forall P Y K (p0 : P) (y0 : Y) (k : P -> P -> R) (delta : R) (d : Data P Y ER) (n : nat)
         (s : list R -> kthin ER P K),
    (1 <= n)%nat -> length (d_x d) = (2 * n)%nat -> 0 < delta <= 2 ->
    let x i := nth i (d_x d) p0 in
    (forall i, (i < n)%nat -> let y := x (2 * i)%nat in let z := x (2 * i + 1)%nat in 0 < k y y + k z z - 2 * k y z) ->
    (forall us, unit_cube n us ->
       kt_sqrt (s us) = kE k /\ kt_delta (s us) = Fin delta /\
       (forall r, 0 < r -> kt_log (s us) (Fin r) = Fin (ln r)) /\ draws_are (s us) us) ->
    exists first second : list R -> list nat,
      (forall us, unit_cube n us -> exists half1 half2,
         kt_half EROps p0 y0 (s us) d = Ok (half1, half2) /\
         c_idx half1 = map Z.of_nat (first us) /\ c_idx half2 = map Z.of_nat (second us) /\
         Permutation (first us ++ second us) (seq 0 (2 * n))) /\
      forall g : nat -> R,
        expect n (fun us => Rsum (map g (first us)) / INR n) (Rsum (map g (seq 0 (2 * n))) / INR (2 * n)) /\
        expect n (fun us => Rsum (map g (second us)) / INR n) (Rsum (map g (seq 0 (2 * n))) / INR (2 * n)).
Proof.
  intros P Y K p0 y0 k delta d n s Hn HL Hd x Hgap HS.
  assert (HN : 0 < INR n) by (apply lt_0_INR; lia).
  set (a := fun i => thresh delta (pair_b k (x (2 * i)%nat) (x (2 * i + 1)%nat)) (sigma_at k delta x i)).
  exists (fun us => chosen (walk (prob k x a) us [])), (fun us => chosen (map negb (walk (prob k x a) us []))).
  split.
  - intros us [HU1 HU2]. destruct (HS us (conj HU1 HU2)) as (S1 & S2 & S3 & S4).
    pose proof (run_is_walk p0 (s us) k delta (d_x d) n us S1 S2 Hd S3 S4 HU1 HL Hgap) as W. cbv zeta in W.
    change (fun i => nth i (d_x d) p0) with x in W. fold a in W.
    eexists _, _. split; [exact (kt_half_run EROps p0 y0 (s us) d n HL)|]. cbn [c_idx].
    set (fl := run_decision EROps p0 (s us) (d_x d) n) in *. rewrite <- W. rewrite (map_map fl negb).
    rewrite (chosen_of x fl), (chosen_of x (fun i => negb (fl i))).
    replace (map (fun i => pair_first (negb (fl i)) i) (seq 0 n)) with (map (fun i => pair_second (fl i) i) (seq 0 n))
      by (apply map_ext; intro i; now destruct (fl i)).
    split; [reflexivity|]. split; [reflexivity|].
    clearbody fl. clear. induction n as [|n IH]; [constructor|].
    rewrite seq_S, !map_app. cbn [map Nat.add]. replace (2 * S n)%nat with (2 * n + 2)%nat by lia. rewrite seq_app. cbn [seq Nat.add].
    rewrite <- app_assoc. etransitivity; [|apply Permutation_app_tail, IH]. rewrite <- app_assoc. apply Permutation_app_head.
    cbn [app]. rewrite Permutation_middle. apply Permutation_app_head.
    unfold pair_first, pair_second. replace (S (2 * n)) with (2 * n + 1)%nat by lia. destruct (fl n); [apply perm_swap|reflexivity].
  - intro g.
    assert (V0 : value (prob k x a) (surplus g) n [] = 0).
    { pose proof (value_odd (prob k x a) (surplus g) (prob_negb k x a) (surplus_negb g) n []) as E. cbn [map] in E. lra. }
    pose proof (expect_walk (prob k x a) (surplus g) n []) as E. rewrite V0 in E.
    assert (I2 : INR (2 * n) = 2 * INR n) by (rewrite mult_INR; reflexivity).
    set (T := Rsum (map g (seq 0 (2 * n)))).
    assert (LW : forall us, length us = n -> length (walk (prob k x a) us []) = n) by (intros us H; rewrite walk_length; cbn; lia).
    split.
    + refine (expect_ext n _ _ _ _ (eq_rect _ (expect n _) (expect_shift n _ _ (T / INR (2 * n)) (expect_scal n _ _ (/ INR n) E)) _ _)).
      * intros us HU _. cbv beta. unfold surplus. rewrite (LW us HU). fold T. rewrite I2. field. lra.
      * rewrite I2. field. lra.
    + refine (expect_ext n _ _ _ _ (eq_rect _ (expect n _) (expect_shift n _ _ (T / INR (2 * n)) (expect_scal n _ _ (- / INR n) E)) _ _)).
      * intros us HU _. cbv beta.
        replace (- / INR n * surplus g (walk (prob k x a) us [])) with (/ INR n * surplus g (map negb (walk (prob k x a) us [])))
          by (rewrite surplus_negb; ring).
        unfold surplus. rewrite map_length, (LW us HU). fold T. rewrite I2. field. lra.
      * rewrite I2. field. lra.
Qed.
Print Assumptions C95_halving_unbiased_partial.

(** ** repeated halving *)
(** the first decision of any run is a fair coin, always the same one *)
Lemma first_decision {P K} (p0 : P) (s : kthin ER P K) k delta u xs n :
  kt_sqrt s = kE k -> kt_delta s = Fin delta -> 0 < delta <= 2 ->
  (forall r, 0 < r -> kt_log s (Fin r) = Fin (ln r)) -> (forall key, kt_uniform s key = Fin (u key)) ->
  length xs = (2 * n)%nat -> (1 <= n)%nat ->
  (forall i, (i < n)%nat -> let y := nth (2 * i) xs p0 in let z := nth (2 * i + 1) xs p0 in 0 < k y y + k z z - 2 * k y z) ->
  (run_decision EROps p0 s xs n 0 = true <-> u (fst (kt_split s (kt_key s))) <= 1 / 2).
Proof.
  intros S1 S2 Hd S3 Hu HL Hn Hg.
  pose proof (walk_decision p0 s k delta u xs n S1 S2 Hd S3 Hu HL Hg 0%nat ltac:(lia)) as D.
  cbv zeta in D. cbn [seq map Nat.mul firstn Nat.add] in D. unfold imbalance in D. cbn [map Rsum] in D.
  replace (0 - 2 * 0) with 0 in D by ring. unfold Rdiv in D at 2. rewrite Rmult_0_l, Rminus_0_r, Rmult_1_r in D. exact D.
Qed.

(** With two halvings every row should be in each of the four parts with probability one
    quarter.  Every call of [kt_half] starts from the solver's own key, so the coin that
    decides the first pair is tossed once and used at both levels: whatever the key, row 1
    is never in the first part, row 0 never in the second or the third and row 1 never in
    the fourth. *)
Theorem C95_reused_key_refuted :
  forall P Y K (p0 : P) (y0 : Y) (k : P -> P -> R) (delta : R) (u : K -> R) (d : Data P Y ER) (n : nat)
         (s : kthin ER P K),
    (1 <= n)%nat -> length (d_x d) = (4 * n)%nat -> 0 < delta <= 2 ->
    (forall i j, (i < 4 * n)%nat -> (j < 4 * n)%nat -> i <> j ->
       let y := nth i (d_x d) p0 in let z := nth j (d_x d) p0 in 0 < k y y + k z z - 2 * k y z) ->
    kt_sqrt s = kE k -> kt_delta s = Fin delta ->
    (forall r, 0 < r -> kt_log s (Fin r) = Fin (ln r)) -> (forall key, kt_uniform s key = Fin (u key)) ->
    exists part1 part2 part3 part4,
      kt_half_rec EROps p0 y0 s (inl d) 2 d = Ok [part1; part2; part3; part4] /\
      length (c_idx part1) = n /\
      ~ In 1%Z (c_idx part1) /\ ~ In 0%Z (c_idx part2) /\ ~ In 0%Z (c_idx part3) /\ ~ In 1%Z (c_idx part4).
Proof.
  intros P Y K p0 y0 k delta u d n s Hn HL Hd Hgap S1 S2 S3 Hu.
  assert (HL2 : d_len d = (2 * (2 * n))%nat) by (unfold d_len; rewrite HL; lia).
  cbn [kt_half_rec]. rewrite (kt_half_run EROps p0 y0 s d (2 * n) HL2). cbv zeta. cbn [bind fst snd c_idx c_w].
  set (fl := run_decision EROps p0 s (d_x d) (2 * n)).
  assert (F0 : fl 0%nat = true <-> u (fst (kt_split s (kt_key s))) <= 1 / 2).
  { apply (first_decision p0 s k delta u (d_x d) (2 * n)); auto; [lia|].
    intros i Hi. apply Hgap; lia. }
  (* a part [l] of the rows, taken by [pick] *)
  assert (LEV : forall (pick : bool -> nat -> nat), (forall b i, pick b i = 2 * i \/ pick b i = 2 * i + 1)%nat ->
    let l := map (fun i => pick (fl i) i) (seq 0 (2 * n)) in
    exists fl' : nat -> bool, (fl' 0%nat = fl 0%nat) /\
    kt_half EROps p0 y0 s (points EROps p0 y0 (mkCS (map Z.of_nat l) (repeat (f1 EROps) (2 * n)) d))
    = Ok (mkCS (map Z.of_nat (map (fun i => pair_first (fl' i) i) (seq 0 n))) (repeat (f1 EROps) n)
               (points EROps p0 y0 (mkCS (map Z.of_nat l) (repeat (f1 EROps) (2 * n)) d)),
          mkCS (map Z.of_nat (map (fun i => pair_second (fl' i) i) (seq 0 n))) (repeat (f1 EROps) n)
               (points EROps p0 y0 (mkCS (map Z.of_nat l) (repeat (f1 EROps) (2 * n)) d)))).
  { intros pick HP l. set (d' := points _ _ _ _).
    assert (Hin : forall i, In i l -> (i < length (d_x d))%nat).
    { intros i Hi. unfold l in Hi. apply in_map_iff in Hi as (j & <- & Hj). apply in_seq in Hj. destruct (HP (fl j) j); lia. }
    assert (DX : d_x d' = map (fun i => nth i (d_x d) p0) l).
    { unfold d', points. cbn [d_x d_getitem c_pre c_idx]. apply gather_nats, Hin. }
    assert (LL : length l = (2 * n)%nat) by (unfold l; now rewrite map_length, seq_length).
    assert (LD : d_len d' = (2 * n)%nat) by (unfold d_len; now rewrite DX, map_length).
    exists (run_decision EROps p0 s (d_x d') n). split; [|exact (kt_half_run EROps p0 y0 s d' n LD)].
    assert (F1 : run_decision EROps p0 s (d_x d') n 0 = true <-> u (fst (kt_split s (kt_key s))) <= 1 / 2).
    { apply (first_decision p0 s k delta u (d_x d') n); auto. intros i Hi.
      assert (NX : forall j, (j < 2 * n)%nat -> nth j (d_x d') p0 = nth (pick (fl j) j) (d_x d) p0).
      { intros j Hj. rewrite DX. rewrite (nth_indep _ p0 ((fun i => nth i (d_x d) p0) 0%nat)) by (rewrite map_length; lia).
        rewrite (map_nth (fun i => nth i (d_x d) p0)). f_equal. unfold l.
        rewrite (nth_indep _ 0%nat ((fun i => pick (fl i) i) 0%nat)) by (rewrite map_length, seq_length; lia).
        rewrite (map_nth (fun i => pick (fl i) i)), seq_nth by lia. reflexivity. }
      cbv zeta. rewrite !NX by lia. apply Hgap.
      - destruct (HP (fl (2 * i)%nat) (2 * i)%nat); lia.
      - destruct (HP (fl (2 * i + 1)%nat) (2 * i + 1)%nat); lia.
      - destruct (HP (fl (2 * i)%nat) (2 * i)%nat), (HP (fl (2 * i + 1)%nat) (2 * i + 1)%nat); lia. }
    destruct (run_decision EROps p0 s (d_x d') n 0), (fl 0%nat); first [tauto | symmetry; tauto]. }
  assert (PF : forall b i, (pair_first b i = 2 * i \/ pair_first b i = 2 * i + 1)%nat) by (intros [] i; unfold pair_first; lia).
  assert (PS : forall b i, (pair_second b i = 2 * i \/ pair_second b i = 2 * i + 1)%nat) by (intros [] i; unfold pair_second; lia).
  destruct (LEV pair_first PF) as (fa & A0 & EA). destruct (LEV pair_second PS) as (fb & B0 & EB).
  cbv zeta in EA, EB. rewrite EA, EB. cbn [bind fst snd c_idx c_w app]. clear EA EB LEV.
  do 4 eexists. split; [reflexivity|]. cbn [c_idx].
  assert (GA : forall (pick q : bool -> nat -> nat) (f : nat -> bool), (forall b i, q b i = 2 * i \/ q b i = 2 * i + 1)%nat ->
     gather 0%Z (map Z.of_nat (map (fun i => pick (fl i) i) (seq 0 (2 * n)))) (map Z.of_nat (map (fun i => q (f i) i) (seq 0 n)))
     = map (fun i => Z.of_nat (pick (fl (q (f i) i)) (q (f i) i))) (seq 0 n)).
  { intros pick q f Hq. rewrite gather_nats.
    - rewrite map_map. apply map_ext_in. intros i Hi. apply in_seq in Hi. rewrite map_map.
      assert (Q : (q (f i) i < 2 * n)%nat) by (destruct (Hq (f i) i); lia).
      rewrite (nth_indep _ 0%Z ((fun j => Z.of_nat (pick (fl j) j)) 0%nat)) by (rewrite map_length, seq_length; exact Q).
      rewrite (map_nth (fun j => Z.of_nat (pick (fl j) j))), seq_nth by exact Q. reflexivity.
    - intros i Hi. apply in_map_iff in Hi as (j & <- & Hj). apply in_seq in Hj. rewrite !map_length, seq_length. destruct (Hq (f j) j); lia. }
  rewrite (GA pair_first pair_first fa PF), (GA pair_first pair_second fa PS), (GA pair_second pair_first fb PF), (GA pair_second pair_second fb PS).
  clear GA F0. split; [now rewrite map_length, seq_length|].
  clearbody fl.
  assert (V : forall q q' (f : nat -> bool) i v, (q = pair_first \/ q = pair_second) -> (q' = pair_first \/ q' = pair_second) ->
    f 0%nat = fl 0%nat -> Z.of_nat (q (fl (q' (f i) i)) (q' (f i) i)) = Z.of_nat v -> (v < 2)%nat ->
    q' (fl 0%nat) 0%nat = 0%nat /\ q (fl 0%nat) 0%nat = v).
  { intros q q' f i v Hq Hq' E0 E Hv. apply Nat2Z.inj in E.
    assert (Q : forall p, p = pair_first \/ p = pair_second -> forall b i, (p b i = 2 * i \/ p b i = 2 * i + 1)%nat)
      by (intros p [-> | ->]; assumption).
    assert (J : q' (f i) i = 0%nat) by (destruct (Q q Hq (fl (q' (f i) i)) (q' (f i) i)); lia).
    assert (I : i = 0%nat) by (destruct (Q q' Hq' (f i) i); lia). subst i. rewrite J in E. rewrite <- E0 at 1. auto. }
  repeat split; intro H; apply in_map_iff in H as (i & E & _).
  - destruct (V pair_first pair_first fa i 1%nat) as [X1 X2]; auto. destruct (fl 0%nat); cbn in *; lia.
  - destruct (V pair_first pair_second fa i 0%nat) as [X1 X2]; auto. destruct (fl 0%nat); cbn in *; lia.
  - destruct (V pair_second pair_first fb i 0%nat) as [X1 X2]; auto. destruct (fl 0%nat); cbn in *; lia.
  - destruct (V pair_second pair_second fb i 1%nat) as [X1 X2]; auto. destruct (fl 0%nat); cbn in *; lia.
Qed.
Print Assumptions C95_reused_key_refuted.

(** The hypotheses of the first theorem are those of C67, met by [C67_applies]; those of
    the second hold for the points 0, 1, 3, 4 of the line with the product kernel. *)
Definition ex_line (us : list R) : kthin ER R nat :=
  mkKT 1 (kE lin1) (kE lin1) (Fin 1) 0%nat
    (fun v => match v with Fin r => Fin (ln r) | _ => NaN end)
    (fun key => (key, S key)) (fun key => Fin (nth key us 0))
    (fun _ draws _ _ => Ok (seq 0 draws)) (fun n size => Nat.log2 (n / size)) (fun size _ => seq 0 size).
Example C95_applies : forall us,
  length [0; 1; 3; 4] = (4 * 1)%nat /\ 0 < 1 <= 2 /\
  (forall i j, (i < 4 * 1)%nat -> (j < 4 * 1)%nat -> i <> j ->
     let y := nth i [0; 1; 3; 4] 0 in let z := nth j [0; 1; 3; 4] 0 in 0 < lin1 y y + lin1 z z - 2 * lin1 y z) /\
  kt_sqrt (ex_line us) = kE lin1 /\ kt_delta (ex_line us) = Fin 1 /\
  (forall r, 0 < r -> kt_log (ex_line us) (Fin r) = Fin (ln r)) /\
  (forall key, kt_uniform (ex_line us) key = Fin (nth key us 0)).
Proof.
  intro us. split; [reflexivity|]. split; [lra|]. split; [|repeat split].
  intros i j Hi Hj N. unfold lin1. destruct i as [|[|[|[|i]]]]; [| | | |lia]; destruct j as [|[|[|[|j]]]]; try lia; cbn [nth]; lra.
Qed.
