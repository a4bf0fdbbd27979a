(** * C78: the expected discrepancy of random samples and of kernel thinning *)
From Coq Require Import List ZArith Reals Lra Lia Bool Permutation.
From Verif Require Import Num Jax RSum JaxFacts DataModel MeanModel MeanSpec GreedySpec GreedyModel MetricSpec MetricProofs CholModel CholSpec PropChol
  MapReduceModel KTModel KTSpec KTProofs2 KTProofs3 PropKT SampleSpec SampleProofs SampleProofs2.
Import ListNotations.
Open Scope R_scope.

Notation rows_at p0 xs l := (map (fun j => nth j xs p0) l).

(** ** RandomSample without replacement: the squared MMD between the sample and the data is on
    average that between all rows, equally weighted, and the data, plus the sampling variance *)
Theorem C78_random_sample :
  forall P Y W (p0 : P) (y0 : Y) (k : P -> P -> R) (xs : list P) (dw : list R) (m : nat)
         (space : list W) (q : W -> R) (sample : W -> random_sample) (draw : W -> list nat),
    let n := length xs in
    (1 <= m <= n)%nat ->
    (forall s, In s space -> rs_size (sample s) = m /\ rs_weighted (sample s) = false /\ rs_unique (sample s) = true /\
                             rs_choice (sample s) n m None false = Ok (draw s)) ->
    uniform_without_replacement space q draw n m ->
    (forall s, In s space -> random_reduce EROps p0 y0 (sample s) (unsup xs dw)
                             = Ok (mkCS (map Z.of_nat (draw s)) (repeat (Fin 1) m) (unsup xs dw))) /\
    expectation space q (fun s => mmd2 k xs dw (rows_at p0 xs (draw s)) (repeat 1 m))
    = mmd2 k xs dw xs (repeat 1 n)
      + INR (n - m) / (INR m * INR (n - 1)) * (average (fun a => k a a) xs - average (fun a => average (k a) xs) xs).
Proof.
  intros P Y W p0 y0 k xs dw m space q sample draw n Hm HS HU. split.
  - intros s Hs. destruct (HS s Hs) as (E1 & E2 & E3 & E4). destruct HU as [HI _]. destruct (orderings_in m _ _ (HI s Hs)) as (L & _).
    unfold random_reduce. rewrite E1, E2, E3. cbn [negb]. change (d_len (unsup xs dw)) with n. rewrite E4. cbn [bind]. rewrite L.
    unfold cs_init, points, d_getitem, d_len. cbn [d_x c_idx]. rewrite gather_length, map_length, L. fold n.
    destruct (Nat.ltb_spec n m); [lia|reflexivity].
  - now apply expected_without.
Qed.
Print Assumptions C78_random_sample.
(** ** RandomSample with replacement: rows are drawn independently, with equal probabilities or,
    if [random_weighted], with probabilities proportional to the weights *)
Theorem C78_random_sample_with_replacement :
  forall P Y W (p0 : P) (y0 : Y) (k : P -> P -> R) (xs : list P) (dw : list R) (m : nat) (weighted : bool)
         (space : list W) (q : W -> R) (sample : W -> random_sample) (draw : W -> list nat),
    let n := length xs in
    let p := if weighted then map (fun v => v / Rsum dw) dw else repeat (1 / INR n) n in
    (1 <= m <= n)%nat -> length dw = n -> Rsum dw <> 0 ->
    (forall s, In s space -> rs_size (sample s) = m /\ rs_weighted (sample s) = weighted /\ rs_unique (sample s) = false /\
       rs_choice (sample s) n m (if weighted then Some (map Fin dw) else None) true = Ok (draw s)) ->
    independent_draws space q draw p m ->
    (forall s, In s space -> random_reduce EROps p0 y0 (sample s) (unsup xs dw)
                             = Ok (mkCS (map Z.of_nat (draw s)) (repeat (Fin 1) m) (unsup xs dw))) /\
    expectation space q (fun s => mmd2 k xs dw (rows_at p0 xs (draw s)) (repeat 1 m))
    = (if weighted then 0 else mmd2 k xs dw xs (repeat 1 n))
      + 1 / INR m * (wavg (fun a => k a a) xs p - wavg (fun a => wavg (fun b => k a b) xs p) xs p).
Proof.
  intros P Y W p0 y0 k xs dw m weighted space q sample draw n p Hm Ld Hd HS HU.
  assert (Hn : INR n <> 0) by (apply not_0_INR; lia).
  assert (Lp : length p = n) by (unfold p; destruct weighted; [now rewrite map_length|apply repeat_length]).
  assert (Sp : Rsum p = 1).
  { unfold p. destruct weighted.
    - unfold Rdiv. rewrite (Rsum_map_scal_r (/ Rsum dw) (fun v => v)), map_id. now field.
    - rewrite Rsum_repeat. now field. }
  split.
  - intros s Hs. destruct (HS s Hs) as (E1 & E2 & E3 & E4). destruct HU as [HI _]. destruct (sequences_in m _ _ (HI s Hs)) as (L & _).
    unfold random_reduce. rewrite E1, E2, E3. cbn [negb]. change (d_len (unsup xs dw)) with n. change (d_w (unsup xs dw)) with (map (Fin (T:=R)) dw). rewrite E4. cbn [bind]. rewrite L.
    unfold cs_init, points, d_getitem, d_len. cbn [d_x c_idx]. rewrite gather_length, map_length, L. fold n.
    destruct (Nat.ltb_spec n m); [lia|reflexivity].
  - rewrite (expected_with p0 k xs dw space q draw p m) by (auto; lia). f_equal. destruct weighted.
    + assert (SD : same_dist xs p xs dw).
      { replace p with (map (Rmult (/ Rsum dw)) dw) by (unfold p; apply map_ext; intro; unfold Rdiv; ring). apply same_scale. now apply Rinv_neq_0_compat. }
      unfold mmd2. rewrite !(SD (fun a => wavg (fun b => k a b) xs p)). rewrite (wavg_fun xs dw (fun a => wavg (fun b => k a b) xs p) (fun a => wavg (fun b => k a b) xs dw)) by (intro a; apply SD). ring.
    + assert (SD : same_dist xs p xs (repeat 1 n)).
      { unfold p. replace (repeat (1 / INR n) n) with (map (Rmult (/ INR n)) (repeat 1 n)).
        - apply same_scale. now apply Rinv_neq_0_compat.
        - clear. generalize n at 2 4. intro j. induction j as [|j IH]; [reflexivity|]. cbn. rewrite IH. f_equal. unfold Rdiv. ring. }
      unfold mmd2. rewrite !(SD (fun a => wavg (fun b => k a b) xs p)).
      rewrite (wavg_fun xs (repeat 1 n) (fun a => wavg (fun b => k a b) xs p) (fun a => wavg (fun b => k a b) xs (repeat 1 n))) by (intro a; apply SD).
      rewrite (wavg_fun xs dw (fun a => wavg (fun b => k a b) xs p) (fun a => wavg (fun b => k a b) xs (repeat 1 n))) by (intro a; apply SD). reflexivity.
Qed.
Print Assumptions C78_random_sample_with_replacement.

(** ** KernelThinning: however its coins fall, its random candidate makes the expected squared
    MMD at most that of RandomSample *)
Theorem C78_kernel_thinning :
  forall P Y K W (p0 : P) (y0 : Y) (k : P -> P -> R) (xs : list P) (dw : list R) (m : nat)
         (space : list W) (q : W -> R) (thin : W -> kthin ER P K) (draw : W -> list nat),
    let n := length xs in
    psd k -> (forall a b, In a xs -> In b xs -> k a a = k b b) ->
    length dw = n -> Forall (fun v => 0 < v) dw -> (1 <= m <= n)%nat -> distribution space q ->
    (forall s, In s space -> kt_ok (thin s) /\ kt_kernel (thin s) = (fun a b => Fin (k a b)) /\ kt_size (thin s) = m /\
                             kt_choice (thin s) n m None false = Ok (draw s)) ->
    uniform_without_replacement space q draw n m ->
    exists result : W -> list nat,
      (forall s, In s space -> kt_reduce EROps p0 y0 (thin s) (unsup xs dw)
         = Ok (mkCS (map Z.of_nat (result s)) (repeat (Fin 1) m) (unsup xs dw))) /\
      expectation space q (fun s => mmd2 k xs dw (rows_at p0 xs (result s)) (repeat 1 m))
      <= mmd2 k xs dw xs (repeat 1 n)
         + INR (n - m) / (INR m * INR (n - 1)) * (average (fun a => k a a) xs - average (fun a => average (k a) xs) xs).
Proof.
  intros P Y K W p0 y0 k xs dw m space q thin draw n HK HD Ld Hd Hm [Q0 Q1] HS HU.
  assert (EX : forall s, In s space -> exists l, kt_reduce EROps p0 y0 (thin s) (unsup xs dw) = Ok (mkCS (map Z.of_nat l) (repeat (Fin 1) m) (unsup xs dw)) /\
    mmd2 k xs dw (rows_at p0 xs l) (repeat 1 m) <= mmd2 k xs dw (rows_at p0 xs (draw s)) (repeat 1 m)).
  { intros s Hs. destruct (HS s Hs) as (E1 & E2 & E3 & E4).
    destruct (C29_best_candidate_improved P Y K p0 y0 (thin s) k xs dw E1 E2 HK HD Ld Hd) as (h & b & c & be & l & A1 & A2 & A3 & A4 & A5 & A6 & A7 & A8 & A9 & A10 & A11 & A12); [rewrite E3; apply Hm|].
    rewrite E3 in *. fold n in A4. rewrite E4 in A4. injection A4 as <-. exists l. split; [exact A8|]. apply A12. apply in_app_iff. right. now left. }
  assert (CH : exists result : W -> list nat, forall s, In s space -> kt_reduce EROps p0 y0 (thin s) (unsup xs dw) = Ok (mkCS (map Z.of_nat (result s)) (repeat (Fin 1) m) (unsup xs dw)) /\
    mmd2 k xs dw (rows_at p0 xs (result s)) (repeat 1 m) <= mmd2 k xs dw (rows_at p0 xs (draw s)) (repeat 1 m)).
  { exists (fun s => match kt_reduce EROps p0 y0 (thin s) (unsup xs dw) with Ok c => map Z.to_nat (c_idx c) | Err _ => [] end).
    intros s Hs. destruct (EX s Hs) as (l & E & LE). rewrite E. cbn [c_idx].
    assert (Q : map Z.to_nat (map Z.of_nat l) = l) by (rewrite map_map; rewrite <- (map_id l) at 2; apply map_ext; intro; apply Nat2Z.id).
    rewrite Q. auto. }
  destruct CH as (result & HR). exists result. split; [intros s Hs; now apply HR|].
  pose proof (expected_without p0 k xs dw space q draw m Hm HU) as EW. fold n in EW. rewrite <- EW. unfold expectation. apply Rsum_le. intros s Hs.
  apply Rmult_le_compat_l; [now apply Q0|]. now apply HR.
Qed.
Print Assumptions C78_kernel_thinning.

(** equally weighted data: the expected squared MMD is at most [kappa / m], so large
    discrepancies are unlikely *)
Theorem C78_kernel_thinning_rate :
  forall P Y K W (p0 : P) (y0 : Y) (k : P -> P -> R) (xs : list P) (c kappa : R) (m : nat)
         (space : list W) (q : W -> R) (thin : W -> kthin ER P K) (draw : W -> list nat),
    let n := length xs in
    psd k -> (forall a, In a xs -> k a a = kappa) -> 0 < c -> (1 <= m <= n)%nat -> distribution space q ->
    (forall s, In s space -> kt_ok (thin s) /\ kt_kernel (thin s) = (fun a b => Fin (k a b)) /\ kt_size (thin s) = m /\
                             kt_choice (thin s) n m None false = Ok (draw s)) ->
    uniform_without_replacement space q draw n m ->
    exists result : W -> list nat,
      (forall s, In s space -> kt_reduce EROps p0 y0 (thin s) (unsup xs (repeat c n))
         = Ok (mkCS (map Z.of_nat (result s)) (repeat (Fin 1) m) (unsup xs (repeat c n)))) /\
      let mmd s := sqrt (mmd2 k xs (repeat c n) (rows_at p0 xs (result s)) (repeat 1 m)) in
      expectation space q (fun s => mmd s * mmd s) <= INR (n - m) / (INR m * INR (n - 1)) * (kappa - average (fun a => average (k a) xs) xs) /\
      expectation space q (fun s => mmd s * mmd s) <= kappa / INR m /\
      forall eps, 0 < eps -> probability space q (fun s => if Rlt_dec eps (mmd s) then true else false) <= kappa / (INR m * (eps * eps)).
Proof.
  intros P Y K W p0 y0 k xs c kappa m space q thin draw n HK HD Hc Hm HQ HS HU.
  assert (Ld : length (repeat c n) = n) by apply repeat_length.
  assert (Hn : 0 < INR n) by (apply lt_0_INR; lia). assert (Hm0 : 0 < INR m) by (apply lt_0_INR; lia).
  assert (SD : same_dist xs (repeat c n) xs (repeat 1 n)).
  { replace (repeat c n) with (map (Rmult c) (repeat 1 n)); [apply same_scale; lra|].
    clear. induction n as [|j IH]; [reflexivity|]. cbn. rewrite IH. f_equal. ring. }
  assert (HD2 : forall a b, In a xs -> In b xs -> k a a = k b b) by (intros; now rewrite !HD).
  assert (Hdw : Forall (fun v => 0 < v) (repeat c n)) by (apply Forall_forall; intros v Hv; apply repeat_spec in Hv; lra).
  destruct (C78_kernel_thinning P Y K W p0 y0 k xs (repeat c n) m space q thin draw HK HD2 Ld Hdw Hm HQ HS HU) as (result & HR & HE).
  exists result. split; [exact HR|]. cbv zeta. fold n in HE.
  assert (Z : mmd2 k xs (repeat c n) xs (repeat 1 n) = 0).
  { unfold mmd2. rewrite !(SD (fun a => wavg (fun b => k a b) xs (repeat 1 n))).
    rewrite (SD (fun a => wavg (fun b => k a b) xs (repeat c n))).
    rewrite (wavg_fun xs (repeat 1 n) (fun a => wavg (fun b => k a b) xs (repeat c n)) (fun a => wavg (fun b => k a b) xs (repeat 1 n))) by (intro a; apply SD). ring. }
  assert (AD : average (fun a => k a a) xs = kappa).
  { unfold average. fold n. rewrite (Rsum_in _ (fun _ => kappa)) by auto. rewrite Rsum_map_const. fold n. field. lra. }
  rewrite Z, AD, Rplus_0_l in HE.
  assert (P0 : forall s, In s space -> 0 <= mmd2 k xs (repeat c n) (rows_at p0 xs (result s)) (repeat 1 m)).
  { intros s Hs. now apply mmd2_nonneg. }
  assert (E2 : expectation space q (fun s => sqrt (mmd2 k xs (repeat c n) (rows_at p0 xs (result s)) (repeat 1 m)) * sqrt (mmd2 k xs (repeat c n) (rows_at p0 xs (result s)) (repeat 1 m)))
    = expectation space q (fun s => mmd2 k xs (repeat c n) (rows_at p0 xs (result s)) (repeat 1 m))).
  { unfold expectation. apply Rsum_in. intros s Hs. f_equal. apply sqrt_sqrt. now apply P0. }
  split; [rewrite E2; exact HE|].
  assert (KA : 0 <= average (fun a => average (k a) xs) xs).
  { pose proof (mmd2_nonneg k xs (repeat 1 n) [] [] HK) as N. unfold mmd2 in N.
    assert (N2 : wavg (fun a => wavg (fun b => k a b) xs (repeat 1 n)) xs (repeat 1 n) = average (fun a => average (k a) xs) xs).
    { unfold n. rewrite wavg_ones. unfold average at 1. f_equal. apply Rsum_in. intros a _. apply wavg_ones. }
    rewrite N2 in N. unfold wavg at 1 2 3, wsum at 1 2 3 in N.
    assert (N3 : Rsum (map (fun p => snd p * wavg (fun b => k (fst p) b) [] []) (combine xs (repeat 1 n))) = 0).
    { rewrite (Rsum_in _ (fun _ => 0)); [apply Rsum_map_const0|]. intros p _. unfold wavg, wsum. cbn. unfold Rdiv. ring. }
    rewrite N3 in N. cbn in N. unfold Rdiv in N. lra. }
  assert (K0 : 0 <= kappa).
  { assert (exists a, In a xs) as [a Ha] by (destruct xs as [|a l]; [unfold n in Hm; cbn in Hm; lia|exists a; now left]).
    pose proof (mmd2_nonneg k [a] [1] [] [] HK) as N. unfold mmd2, wavg, wsum in N. cbn in N. rewrite (HD a Ha) in N. unfold Rdiv in N. rewrite !Rinv_1 in N || (replace (1 + 0) with 1 in N by lra; rewrite Rinv_1 in N). lra. }
  assert (CC : 0 <= INR (n - m) / (INR m * INR (n - 1)) <= / INR m).
  { destruct (Nat.eq_dec n 1) as [E|E].
    - rewrite E. replace (1 - m)%nat with 0%nat by lia. cbn [INR]. unfold Rdiv. rewrite Rmult_0_l. split; [lra|]. apply Rlt_le, Rinv_0_lt_compat. exact Hm0.
    - assert (N1 : 0 < INR (n - 1)) by (apply lt_0_INR; lia). assert (N2 : INR (n - m) <= INR (n - 1)) by (apply le_INR; lia). pose proof (pos_INR (n - m)).
      replace (INR (n - m) / (INR m * INR (n - 1))) with (INR (n - m) / INR (n - 1) * / INR m) by (field; lra).
      assert (I : 0 < / INR m) by now apply Rinv_0_lt_compat.
      assert (F1 : 0 <= INR (n - m) / INR (n - 1)) by (unfold Rdiv; apply Rmult_le_pos; [assumption|apply Rlt_le, Rinv_0_lt_compat; assumption]).
      assert (F2 : INR (n - m) / INR (n - 1) <= 1) by (apply Rmult_le_reg_r with (INR (n - 1)); [exact N1|]; unfold Rdiv; rewrite Rmult_assoc, Rinv_l by lra; lra).
      split; [apply Rmult_le_pos; lra|]. rewrite <- (Rmult_1_l (/ INR m)) at 2. apply Rmult_le_compat_r; lra. }
  set (E := expectation space q (fun s => sqrt (mmd2 k xs (repeat c n) (rows_at p0 xs (result s)) (repeat 1 m)) * sqrt (mmd2 k xs (repeat c n) (rows_at p0 xs (result s)) (repeat 1 m)))) in *.
  assert (B : E <= kappa / INR m).
  { rewrite E2. eapply Rle_trans; [exact HE|]. set (f := INR (n - m) / (INR m * INR (n - 1))) in *.
    apply Rle_trans with (f * kappa); [apply Rmult_le_compat_l; lra|]. unfold Rdiv. rewrite Rmult_comm. apply Rmult_le_compat_l; lra. }
  split; [exact B|]. intros eps He. assert (He2 : 0 < eps * eps) by now apply Rmult_lt_0_compat.
  apply Rle_trans with (/ (eps * eps) * E).
  - unfold probability, E, expectation. rewrite <- Rsum_map_scal. apply Rsum_le. intros s Hs. destruct HQ as [Q0 _]. specialize (Q0 s Hs).
    set (v := sqrt (mmd2 k xs (repeat c n) (rows_at p0 xs (result s)) (repeat 1 m))). assert (V : 0 <= v) by apply sqrt_pos.
    rewrite (Rmult_comm (/ (eps * eps))), Rmult_assoc. apply Rmult_le_compat_l; [exact Q0|].
    assert (I : 0 < / (eps * eps)) by now apply Rinv_0_lt_compat.
    destruct (Rlt_dec eps v) as [G|G].
    + apply Rmult_le_reg_r with (eps * eps); [exact He2|]. rewrite Rmult_assoc, Rinv_l by lra. rewrite Rmult_1_l, Rmult_1_r. apply Rmult_le_compat; lra.
    + apply Rmult_le_pos; [apply Rmult_le_pos; exact V|lra].
  - replace (kappa / (INR m * (eps * eps))) with (/ (eps * eps) * (kappa / INR m)) by (field; lra).
    apply Rmult_le_compat_l; [apply Rlt_le; now apply Rinv_0_lt_compat|exact B].
Qed.
Print Assumptions C78_kernel_thinning_rate.

(** ** Finding: by default RandomSample ignores the weights of the data, so even a sample of all
    rows differs from the data *)
Theorem C78_weights_ignored_refuted :
  exists (k : R -> R -> R) (xs dw : list R), psd k /\ Forall (fun v => 0 < v) dw /\ length dw = length xs /\
    forall choice, choice_ok choice -> exists l,
      random_reduce EROps 0 tt (mkRS 2 false true choice) (unsup xs dw) = Ok (mkCS (map Z.of_nat l) (repeat (Fin 1) 2) (unsup xs dw)) /\
      mmd2 k xs dw (rows_at 0 xs l) (repeat 1 2) = 1 / 16.
Proof.
  exists (fun a b => a * b), [0; 1], [1; 3]. split; [|split; [repeat constructor; lra|split; [reflexivity|]]].
  - split; [intros; ring|]. intro ms. 
    assert (E : bil (fun a b => a * b) ms ms = lin ms (fun a => a) * lin ms (fun a => a)).
    { rewrite bil_lin. rewrite (lin_ext ms _ (fun p => lin ms (fun a => a) * p)).
      - rewrite lin_mul. reflexivity.
      - intro p. rewrite (lin_mul ms p (fun a => a)). ring. }
    rewrite E. apply Rle_0_sqr.
  - intros choice HC. destruct (C27_random_sample 0 tt (mkRS 2 false true choice) (unsup [0; 1] [1; 3]) HC) as [_ H].
    destruct H as (l & E & L & RG & U); [cbn; lia|]. exists l. split; [exact E|]. cbn [rs_size rs_unique] in *. specialize (U eq_refl).
    change (d_len (unsup [0; 1] [1; 3])) with 2%nat in RG.
    destruct l as [|a [|b [|]]]; try discriminate. pose proof (RG a (or_introl eq_refl)). pose proof (RG b (or_intror (or_introl eq_refl))).
    inversion U as [|? ? NI _]; subst. assert (a <> b) by (intro; subst; apply NI; now left).
    destruct a as [|[|a]]; destruct b as [|[|b]]; try lia; unfold mmd2, wavg, wsum; cbn; field.
Qed.
Print Assumptions C78_weights_ignored_refuted.

(** ** The hypotheses are met: all twelve ordered samples of two of four rows, equally likely *)
Definition two_of_four := orderings 2 (seq 0 4).
Definition fixed_choice (l : list nat) (n draws : nat) (p : option (list ER)) (replace : bool) : result (list nat) :=
  if (n =? 4)%nat && (draws =? 2)%nat && negb replace then Ok l else first_choice ER n draws p replace.
Lemma fixed_choice_ok l : In l two_of_four -> choice_ok (fixed_choice l).
Proof.
  intros Hl n draws p r. unfold fixed_choice. destruct (Nat.eqb_spec n 4) as [->|N]; [|apply first_choice_ok].
  destruct (Nat.eqb_spec draws 2) as [->|N]; [|apply first_choice_ok]. destruct r; cbn [andb negb]; [apply first_choice_ok|].
  destruct (orderings_in 2 _ _ Hl) as (L & I & ND). split; [lia|]. intros _. exists l. split; [reflexivity|]. split; [exact L|]. split; [|auto].
  intros i Hi. apply I in Hi. apply in_seq in Hi. lia.
Qed.
Example C78_applies :
  distribution two_of_four (fun _ => / 12) /\ uniform_without_replacement two_of_four (fun _ => / 12) (fun l => l) 4 2 /\
  psd cosk /\ (forall a, In a [0; 1; 2; 3] -> cosk a a = 1) /\
  forall s, In s two_of_four ->
    let thin := mkKT 2 (fun a b => Fin (cosk a b)) (fun a b => Fin (cosk a b)) (Fin (1 / 2)) 7%nat
      (fun v => match v with Fin r => Fin (ln r) | _ => NaN end) (fun k => (2 * k, 2 * k + 1)%nat) (fun k => Fin (/ (1 + INR k))) (fixed_choice s)
      (fun n size => Nat.log2 (n / size)) (fun size _ => seq 0 size) in
    kt_ok thin /\ kt_choice thin 4 2 None false = Ok s /\
    rs_choice (mkRS 2 false true (fixed_choice s)) 4 2 None false = Ok s.
Proof.
  assert (L12 : INR (length two_of_four) = 12) by (cbn; lra).
  split; [split; [intros; lra|]; rewrite Rsum_map_const, L12; lra|].
  split; [split; [intros s Hs; exact Hs|]; intro f; change (orderings 2 (seq 0 4)) with two_of_four; rewrite L12; reflexivity|].
  split; [exact cosk_psd|]. split; [intros a _; unfold cosk; replace (a - a) with 0 by lra; apply cos_0|].
  intros s Hs thin. split; [|split; reflexivity]. pose proof (ex_kt_ok 2 ltac:(lia)) as K. destruct K. constructor; auto. now apply fixed_choice_ok.
Qed.
