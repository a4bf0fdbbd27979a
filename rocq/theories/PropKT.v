(** * Properties of KernelThinning and CompressPlusPlus *)
From Coq Require Import List ZArith Bool Reals Permutation Lia Lra.
From Verif Require Import Num Jax RSum JaxFacts DataModel MeanModel GreedyModel GreedySpec MetricModel MetricSpec MetricProofs
  CholModel CholSpec PropChol MapReduceModel KTModel KTSpec KTProofs KTProofs2 KTProofs3 KTProofs4.
Import ListNotations.
Open Scope nat_scope.

Notation unsup xs dw := (mkData xs (map Fin dw) None).

(** a positive semi-definite kernel of constant diagonal, used by the examples *)
Definition cosk (a b : R) : R := cos (a - b).
Lemma cosk_psd : psd cosk.
Proof.
  split; [intros; unfold cosk; rewrite <- cos_neg; f_equal; ring|]. intros ms.
  assert (E : bil cosk ms ms = (lin ms cos * lin ms cos + lin ms sin * lin ms sin)%R).
  { rewrite bil_lin.
    rewrite (lin_ext ms _ (fun p => lin ms cos * cos p + lin ms sin * sin p)%R).
    - rewrite lin_add, !lin_mul. ring.
    - intros p. rewrite (lin_ext ms _ (fun q => cos p * cos q + sin p * sin q)%R) by (intros; apply cos_minus).
      rewrite lin_add, !lin_mul. ring. }
  rewrite E. pose proof (Rle_0_sqr (lin ms cos)). pose proof (Rle_0_sqr (lin ms sin)). unfold Rsqr in *. lra.
Qed.
Definition ex_kt (size : nat) : kthin ER R nat :=
  mkKT size (fun a b => Fin (cosk a b)) (fun a b => Fin (cosk a b)) (Fin (1 / 2)%R) 7
    (fun v => match v with Fin r => Fin (ln r) | _ => NaN end)
    (fun k => (2 * k, 2 * k + 1)) (fun k => Fin (/ (1 + INR k))%R) (first_choice ER)
    (fun n size => Nat.log2 (n / size)) (fun size _ => seq 0 size).
Lemma ex_kt_ok size : 1 <= size -> kt_ok (ex_kt size).
Proof.
  intros H. constructor; cbn; auto.
  - apply first_choice_ok.
  - intros n sz [H1 H2].
    assert (1 <= n / sz) by (apply Nat.div_le_lower_bound; lia).
    pose proof (Nat.log2_spec (n / sz) ltac:(lia)) as [L _].
    transitivity (sz * (n / sz)); [now apply Nat.mul_le_mono_l|]. apply Nat.mul_div_le. lia.
Qed.

(** ** C28.  Any arithmetic, any kernel, any coin flips: recursive halving of the first
    [size * 2 ^ m] points gives [2 ^ m] candidates of [size] indices each that together
    are a rearrangement of exactly those points, all referring to the original data. *)
Theorem C28_halving_partitions {V P Y K} (O : FOps V) (p0 : P) (y0 : Y) (s : kthin V P K) (d : Data P Y V) size m :
  size * 2 ^ m <= d_len d ->
  exists parts lists,
    kt_half_rec O p0 y0 s (inl (d_take d (size * 2 ^ m))) m d = Ok parts /\
    (forall c, In c parts -> c_pre c = d) /\
    map c_idx parts = map (map Z.of_nat) lists /\
    splits lists (2 ^ m) size (seq 0 (size * 2 ^ m)).
Proof. intros H. destruct (partition_ok O p0 y0 s d size m H) as [p [A [B [l [C D]]]]]. eauto 10. Qed.
Print Assumptions C28_halving_partitions.
(** One halving step sends exactly one point of each consecutive pair to each side. *)
Theorem C28_one_of_each_pair {V P Y K} (O : FOps V) (p0 : P) (y0 : Y) (s : kthin V P K) (d : Data P Y V) h :
  d_len d = 2 * h -> exists swap a b,
    kt_half O p0 y0 s d = Ok (a, b) /\ c_pre a = d /\ c_pre b = d /\
    c_idx a = map (fun i => Z.of_nat (pair_first (swap i) i)) (seq 0 h) /\
    c_idx b = map (fun i => Z.of_nat (pair_second (swap i) i)) (seq 0 h).
Proof.
  intros H. destruct (kt_half_ok O p0 y0 s d h H) as [fl [E _]]. cbv zeta in E.
  exists fl. do 2 eexists. split; [exact E|]. cbn [c_pre c_idx]. rewrite !map_map. auto.
Qed.
Print Assumptions C28_one_of_each_pair.
Example C28_case : 3 * 2 ^ 2 <= d_len (as_data (Y:=unit) EROps (repeat 0%R 13)).
Proof. cbn. lia. Qed.

(** ** C29.  The chosen candidate has the smallest MMD of all halving candidates and the
    random baseline, and the refined result is at least as good as every one of them. *)
Theorem C29_best_candidate_improved :
  forall P Y K (p0 : P) (y0 : Y) (s : kthin ER P K) (k : P -> P -> R) (xs : list P) (dw : list R),
    kt_ok s -> kt_kernel s = (fun a b => Fin (k a b)) -> psd k ->
    (forall a b, In a xs -> In b xs -> k a a = k b b) ->
    length dw = length xs -> Forall (fun v => 0 < v)%R dw -> kt_size s <= length xs ->
    let d : Data P Y ER := unsup xs dw in
    let m := kt_depth s (length xs) (kt_size s) in
    let mmd l := mmd2 k xs dw (map (fun j => nth j xs p0) l) (repeat 1%R (kt_size s)) in
    exists halves base cands best l,
      kt_candidates EROps p0 y0 s d = Ok cands /\
      map c_idx cands = map (map Z.of_nat) (halves ++ [base]) /\
      splits halves (2 ^ m) (kt_size s) (seq 0 (kt_size s * 2 ^ m)) /\
      kt_choice s (length xs) (kt_size s) None false = Ok base /\
      kt_choose EROps p0 y0 s cands d = Ok (map Z.of_nat best) /\ In best (halves ++ [base]) /\
      (forall c, In c (halves ++ [base]) -> mmd best <= mmd c)%R /\
      kt_reduce EROps p0 y0 s d = Ok (mkCS (map Z.of_nat l) (repeat (Fin 1%R) (kt_size s)) d) /\
      length l = kt_size s /\ NoDup l /\ (forall i, In i l -> i < length xs) /\
      (forall c, In c (halves ++ [base]) -> mmd l <= mmd c)%R.
Proof.
  intros P Y K p0 y0 s k xs dw H1 H2 H3 H4 H5 H6 H7 d m mmd.
  destruct (kt_reduce_best p0 y0 s k xs dw H1 H2 H3 H4 H5 H6 H7)
    as [cl [base [cands [best [l [A [B [C [D [E [F [G [H [I [J [L M]]]]]]]]]]]]]]]].
  exists cl, base, cands, best, l. repeat (split; [assumption|]).
  intros c Hc. eapply Rle_trans; [exact M|]. apply G, Hc.
Qed.
Print Assumptions C29_best_candidate_improved.
(** Size, range and distinctness need neither a psd kernel nor a constant diagonal; too
    large a size is rejected. *)
Theorem C29_sized_distinct :
  forall P Y K (p0 : P) (y0 : Y) (s : kthin ER P K) (k : P -> P -> R) (xs : list P) (dw : list R),
    kt_ok s -> kt_kernel s = (fun a b => Fin (k a b)) -> length dw = length xs -> Forall (fun v => 0 < v)%R dw ->
    let d : Data P Y ER := unsup xs dw in
    (length xs < kt_size s -> kt_reduce EROps p0 y0 s d = Err ValueError) /\
    (kt_size s <= length xs ->
      exists l, kt_reduce EROps p0 y0 s d = Ok (mkCS (map Z.of_nat l) (repeat (Fin 1%R) (kt_size s)) d) /\
        length l = kt_size s /\ NoDup l /\ forall i, In i l -> i < length xs).
Proof.
  intros P Y K p0 y0 s k xs dw H1 H2 H3 H4 d. split; intros H5.
  - unfold kt_reduce. change (d_len d) with (length xs). now rewrite (proj2 (Nat.ltb_lt _ _)).
  - now apply (kt_reduce_sized p0 y0 s k).
Qed.
Print Assumptions C29_sized_distinct.
Example C29_case : kt_ok (ex_kt 3) /\ psd cosk /\ (forall a b, cosk a a = cosk b b) /\
  Forall (fun v => 0 < v)%R [1; 2; 1; 1; 3; 1; 1]%R /\ kt_depth (ex_kt 3) 7 3 = 1.
Proof.
  split; [apply ex_kt_ok; lia|]. split; [exact cosk_psd|].
  split; [intros; unfold cosk; f_equal; ring|]. split; [repeat constructor; lra|]. reflexivity.
Qed.
(** the theorem applied: a coreset of 3 of 7 points exists and is distinct *)
Example C29_applies : exists l,
  kt_reduce EROps 0%R tt (ex_kt 3) (unsup [0; 1; 2; 3; 4; 5; 6]%R [1; 2; 1; 1; 3; 1; 1]%R)
  = Ok (mkCS (map Z.of_nat l) (repeat (Fin 1%R) 3) (unsup [0; 1; 2; 3; 4; 5; 6]%R [1; 2; 1; 1; 3; 1; 1]%R)) /\ NoDup l.
Proof.
  destruct (C29_sized_distinct R unit nat 0%R tt (ex_kt 3) cosk [0; 1; 2; 3; 4; 5; 6]%R [1; 2; 1; 1; 3; 1; 1]%R) as [_ H].
  - apply ex_kt_ok; lia.
  - reflexivity.
  - reflexivity.
  - repeat constructor; lra.
  - destruct H as [l [E [_ [N _]]]]; [cbn; lia|]. exists l. split; [exact E|exact N].
Qed.

(** ** C30 *)
(** Compression of [4 ^ (g + j)] distinct rows gives [2 ^ (g + (g + j))] distinct rows
    among them, that is [f(k) = 2 ^ (g + k)] of [4 ^ k]. *)
Theorem C30_compress_sizes :
  forall P Y K (p0 : P) (y0 : Y) (s : kthin ER P K) (k : P -> P -> R) (xs : list P) (dw : list R) g j fuel l,
    kt_ok s -> kt_kernel s = (fun a b => Fin (k a b)) -> length dw = length xs -> Forall (fun v => 0 < v)%R dw ->
    NoDup l -> (forall i, In i l -> i < length xs) -> length l = 4 ^ (g + j) -> j <= fuel ->
    let d : Data P Y ER := unsup xs dw in
    exists l', compress_rec EROps p0 y0 s d g fuel (map Z.of_nat l) = Ok (map Z.of_nat l') /\
      length l' = 2 ^ (g + (g + j)) /\ NoDup l' /\ incl l' l.
Proof. intros. apply (compress_rec_ok p0 y0 s k); auto. split; auto. Qed.
Print Assumptions C30_compress_sizes.
Theorem C30_compress_plus_plus :
  forall P Y K (p0 : P) (y0 : Y) (c : compress ER P K) (k : P -> P -> R) (xs : list P) (dw : list R) fuel,
    let size := kt_size (cp_kt c) in
    let n := length xs in
    let p := cp_log4 c n in
    let d : Data P Y ER := unsup xs dw in
    kt_ok (cp_kt c) -> kt_kernel (cp_kt c) = (fun a b => Fin (k a b)) -> length dw = n ->
    Forall (fun v => 0 < v)%R dw -> xs <> [] -> log4_is n p -> p <= fuel ->
    (size <= n /\ (0 <= cp_g c <= Z.of_nat p)%Z /\ size <= 2 ^ (Z.to_nat (cp_g c) + p) ->
       exists l, compress_reduce EROps p0 y0 c fuel d
                 = Ok (mkCS (map Z.of_nat l) (repeat (Fin 1%R) size) d) /\
         length l = size /\ NoDup l /\ forall i, In i l -> i < n) /\
    (~ (size <= n /\ (0 <= cp_g c <= Z.of_nat p)%Z /\ size <= 2 ^ (Z.to_nat (cp_g c) + p)) ->
       compress_reduce EROps p0 y0 c fuel d = Err ValueError).
Proof.
  intros P Y K p0 y0 c k xs dw fuel size n p d Ho Hk Hdw Hpos Hne [Hp1 Hp2] Hf. split.
  - intros [A [B C]]. apply (compress_reduce_ok p0 y0 c k xs dw p fuel); auto.
  - intros H. apply compress_invalid. cbv zeta. change (d_len d) with n. fold size. fold p.
    destruct (Nat.lt_ge_cases n size); [auto|]. right. right.
    destruct (Z.le_gt_cases 0 (cp_g c)); [|left; lia].
    destruct (Z.le_gt_cases (cp_g c) (Z.of_nat p)); [|left; lia].
    right. destruct (Nat.lt_ge_cases (2 ^ (Z.to_nat (cp_g c) + p)) size); [assumption|]. exfalso. apply H. auto.
Qed.
Print Assumptions C30_compress_plus_plus.
Example C30_case : exists l,
  let d := unsup (map INR (seq 0 20)) (repeat 1%R 20) in
  compress_reduce EROps 0%R tt (mkCP 1 (ex_kt 5) (fun _ => 2)) 2 d
  = Ok (mkCS (map Z.of_nat l) (repeat (Fin 1%R) 5) d) /\ length l = 5 /\ NoDup l.
Proof.
  destruct (C30_compress_plus_plus R unit nat 0%R tt (mkCP 1 (ex_kt 5) (fun _ => 2)) cosk
    (map INR (seq 0 20)) (repeat 1%R 20) 2) as [H _].
  - apply ex_kt_ok; lia.
  - reflexivity.
  - now rewrite map_length, repeat_length.
  - apply Forall_forall. intros v Hv. apply repeat_spec in Hv. subst. lra.
  - discriminate.
  - rewrite map_length, seq_length. unfold log4_is. cbn. lia.
  - cbn. lia.
  - destruct H as [l [E [L [N _]]]].
    + split; [|split]; [apply Nat.leb_le; reflexivity|cbn; lia|apply Nat.leb_le; reflexivity].
    + exists l. split; [exact E|]. auto.
Qed.

(** ** C48: the swap decision of kernel halving is the one documented *)
Theorem C48_swap_rule_partial :
  forall P K (p0 : P) (s : kthin ER P K) (k : P -> P -> R) (delta : R) (u : K -> R) (xs : list P) n,
    kt_sqrt s = (fun a b => Fin (k a b)) -> kt_delta s = Fin delta -> (0 < delta <= 2)%R ->
    (forall r, (0 < r)%R -> kt_log s (Fin r) = Fin (ln r)) -> (forall key, kt_uniform s key = Fin (u key)) ->
    length xs = 2 * n ->
    let x i := nth i xs p0 in
    (forall i, i < n -> let y := x (2 * i) in let z := x (2 * i + 1) in (0 < k y y + k z z - 2 * k y z)%R) ->
    exists swap first,
      h_first (kt_half_loop EROps p0 s xs) = map Z.of_nat first /\
      first = map (fun i => pair_first (swap i) i) (seq 0 n) /\
      forall i, i < n ->
        let key := Nat.iter i (fun key => snd (kt_split s key)) (kt_key s) in
        let y := x (2 * i) in let z := x (2 * i + 1) in
        let alpha := imbalance k (firstn (2 * i) xs) (map x (firstn i first)) y z in
        let a := thresh delta (pair_b k y z) (sigma_at k delta x i) in
        (swap i = true <-> (u (fst (kt_split s key)) <= 1 / 2 * (1 - alpha / a))%R).
Proof.
  intros P K p0 s k delta u xs n H1 H2 H3 H4 H5 H6 x H7.
  exists (run_decision EROps p0 s xs n), (map (fun j => pair_first (run_decision EROps p0 s xs n j) j) (seq 0 n)).
  assert (E2 : length xs / 2 = n) by (rewrite H6, Nat.mul_comm; apply Nat.div_mul; lia).
  split; [|split; [reflexivity|]].
  - rewrite (proj1 (half_loop_indices EROps p0 s xs)), E2. reflexivity.
  - intros i Hi. pose proof (walk_decision p0 s k delta u xs n H1 H2 H3 H4 H5 H6 H7 i Hi) as W.
    cbv zeta. rewrite firstn_map. replace (firstn i (seq 0 n)) with (seq 0 i); [exact W|].
    replace n with (i + (n - i)) by lia. rewrite seq_app, firstn_app, seq_length, Nat.sub_diag, firstn_O, app_nil_r.
    now rewrite firstn_all2 by (rewrite seq_length; lia).
Qed.
Print Assumptions C48_swap_rule_partial.
Example C48_case :
  let x i := nth i [0; 1; 3; 4]%R 0%R in
  forall i, i < 2 -> let y := x (2 * i) in let z := x (2 * i + 1) in
    (0 < cosk y y + cosk z z - 2 * cosk y z)%R.
Proof.
  assert (C1 : (cos 1 < 1)%R).
  { pose proof PI_RGT_0. pose proof PI2_1. assert (cos 1 < cos 0)%R by (apply cos_decreasing_1; lra). now rewrite cos_0 in *. }
  intros x i Hi y z. unfold y, z, x, cosk. clear y z.
  assert (Z : forall r, cos (r - r) = 1%R) by (intros r; replace (r - r)%R with 0%R by lra; apply cos_0).
  destruct i as [|[|i]]; [| |lia]; cbn [nth Nat.mul Nat.add]; rewrite !Z.
  - replace (0 - 1)%R with (Ropp 1) by lra. rewrite cos_neg. lra.
  - replace (3 - 4)%R with (Ropp 1) by lra. rewrite cos_neg. lra.
Qed.
(** but once a pair consists of two equal points no later pair is ever swapped, whatever
    the random numbers: the scale becomes NaN *)
Theorem C48_duplicate_freezes_refuted :
  forall P K (p0 : P) (s : kthin ER P K) (k : P -> P -> R) (lg : R) (xs : list P) n i,
    kt_sqrt s = (fun a b => Fin (k a b)) ->
    kt_log s (fdiv EROps (fofZ EROps 2) (kt_delta s)) = Fin lg ->
    length xs = 2 * n -> i < n -> nth (2 * i) xs p0 = nth (2 * i + 1) xs p0 ->
    forall j, i <= j < n -> nth j (h_first (kt_half_loop EROps p0 s xs)) 0%Z = Z.of_nat (2 * j).
Proof.
  intros P K p0 s k lg xs n i H1 H2 H3 H4 H5 j Hj.
  assert (E2 : length xs / 2 = n) by (rewrite H3, Nat.mul_comm; apply Nat.div_mul; lia).
  rewrite (proj1 (half_loop_indices EROps p0 s xs)), E2. rewrite map_map.
  rewrite (nth_indep _ 0%Z (Z.of_nat (pair_first (run_decision EROps p0 s xs n 0) 0))) by (rewrite map_length, seq_length; lia).
  rewrite (map_nth (fun j => Z.of_nat (pair_first (run_decision EROps p0 s xs n j) j))), seq_nth by lia.
  cbn [Nat.add]. rewrite (frozen p0 s k lg xs n H1 H2 H3 i j H4 H5 Hj). reflexivity.
Qed.
Print Assumptions C48_duplicate_freezes_refuted.

(** ** C44: supervised data is never accepted: the final herding refinement raises *)
Theorem C44_kernel_thinning_supervised_refuted {V P Y K} (O : FOps V) (p0 : P) (y0 : Y)
    (s : kthin V P K) (x : list P) (w : list V) (y : list Y) :
  forall r, kt_reduce O p0 y0 s (mkData x w (Some y)) <> Ok r.
Proof. exact (kt_supervised O p0 y0 s x w y). Qed.
Print Assumptions C44_kernel_thinning_supervised_refuted.
Theorem C44_compress_supervised_refuted {V P Y K} (O : FOps V) (p0 : P) (y0 : Y)
    (c : compress V P K) fuel (x : list P) (w : list V) (y : list Y) :
  forall r, compress_reduce O p0 y0 c fuel (mkData x w (Some y)) <> Ok r.
Proof. exact (compress_supervised O p0 y0 c fuel x w y). Qed.
Print Assumptions C44_compress_supervised_refuted.
