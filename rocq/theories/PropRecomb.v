(** * Properties of the recombination solvers: C34-C36 and the recombination part of C44 *)
From Coq Require Import List Arith ZArith QArith Qreals Lia Reals Lra Bool.
From Verif Require Import Num RSum Jax JaxFacts DataModel MetricProofs2 RecSpec RecModel RecProofs RecProofs2 RecProofs3
  RecProofs4 RecProofs5 RecProofs7 RecProofs8 RecProofs9.
Import ListNotations.
Local Open Scope R_scope.

(** A null-space oracle for the examples: exact Gaussian elimination over the reals. *)
Definition gauss_null (k : nat) (M : list (list ER)) : list (list ER) * nat :=
  let A := map (map unfin) M in (map (map Fin) (gauss A k), length (gauss A k)).
Lemma gauss_null_ok k A : null_basis_at (gauss_null k) k A.
Proof.
  exists (gauss A k), (length (gauss A k)). unfold gauss_null.
  assert (E : map (map unfin) (map (map Fin) A) = A).
  { rewrite map_map. erewrite map_ext; [apply map_id|]. intros a. apply unfin_fin. }
  rewrite E. split; [reflexivity|]. destruct (gauss_ok A k) as (H1 & H2 & H3 & H4 & H5).
  split; [lia|]. split; auto. split; [|split; [now rewrite firstn_all|now rewrite firstn_all]].
  intros j Hj. rewrite Forall_forall in H3. apply H3, nth_In, Hj.
Qed.

Lemma map2_seq {A B C} (h : A -> B -> C) l l' da db : length l = length l' ->
  map2 h l l' = map (fun i => h (nth i l da) (nth i l' db)) (seq 0 (length l)).
Proof.
  revert l'; induction l as [|a l IH]; intros [|b l'] E; try discriminate; auto. cbn [map2 length seq map nth]. f_equal.
  rewrite (IH l') by (simpl in E; lia). rewrite <- seq_shift, map_map. reflexivity.
Qed.

Lemma filter_zero_repeat q : filter (fun x => if Req_EM_T x 0 then false else true) (repeat 0 q) = [].
Proof. induction q; [reflexivity|]. cbn. destruct (Req_EM_T 0 0); [auto|congruence]. Qed.

(** ** C34: Caratheodory recombination *)
(** Test function c at data point i is [nth c (f (nth i xs p0)) 0]; there are m of them.
    The null-space routine is any function that returns a basis of the left null space of
    the matrices with rows (1, f x), x in the data. *)
Theorem C34_caratheodory :
  forall P Y (p0 : P) (y0 : Y) phi (f : P -> list R) m null (xs : list P) (ws : list R) mode,
    (forall x, In x xs -> phi x = map Fin (f x) /\ length (f x) = m) ->
    length ws = length xs -> Forall (fun x => 0 <= x) ws -> 0 < Rsum ws ->
    (forall A, length A = length xs -> matrix (S m) A ->
       (forall a, In a A -> exists x, In x xs /\ a = 1 :: f x) -> null_basis_at null (S m) A) ->
    mode <> MOther ->
    let g i c := nth c (f (nth i xs p0)) 0 in
    exists idx wt,
      carath_reduce EROps p0 y0 phi null mode (mkData xs (map Fin ws) None)
        = Ok (mkCS (map Z.of_nat idx) (map Fin wt) (mkData xs (map Fin ws) None)) /\
      length wt = length idx /\
      Forall (fun a => 0 <= a) wt /\
      Rsum wt = 1 /\
      (forall c, (c < m)%nat ->
         wsum_at (fun i => g i c) idx wt = wsum_at (fun i => g i c) (seq 0 (length xs)) ws / Rsum ws) /\
      Forall (fun i => (i < length xs)%nat /\ 0 < nth i ws 0) idx /\
      support_independent m g idx wt /\
      (nonzeros wt <= Nat.min (length xs) (S m))%nat /\
      (forall D, (forall x, In x xs -> exists cs, length cs = length D /\
                    forall c, (c < S m)%nat -> nth c (1 :: f x) 0 = comb cs D c) ->
         (nonzeros wt <= length D)%nat).
Proof.
  intros P Y p0 y0 phi f m null xs ws mode H1 H2 H3 H4 H5 H6 g.
  destruct (carath_outcome p0 y0 phi f m null xs ws H1 H2 H3 H4 H5 mode H6)
    as (idx & wt & E & L1 & L2 & I & W & S1 & C1 & SI & NZ).
  exists idx, wt. do 8 (split; [assumption|]).
  intros D HD.
  assert (exists K, length K = length idx /\ forall j, (j < length idx)%nat -> length (nth j K []) = length D /\
            forall c, (c < S m)%nat -> nth c (1 :: f (nth (nth j idx 0%nat) xs p0)) 0 = comb (nth j K []) D c) as (K & LK & HK).
  { clear - I HD. induction idx as [|i idx IH]; [exists []; split; [auto|intros; simpl in *; lia]|].
    inversion I as [|? ? Hi HI]; subst. destruct (IH HI) as (K & LK & HK).
    destruct (HD (nth i xs p0)) as (cs & Lc & Hc); [now apply nth_In|].
    exists (cs :: K). split; [simpl; lia|]. intros [|j] Hj; simpl in *; auto. apply HK. lia. }
  rewrite nonzeros_nzpos. apply (support_count K (length D) wt); [lia|].
  intros v Lv Nv Hz j Hj. rewrite LK in *.
  assert (Hc : forall c, (c < S m)%nat -> Rsum (map (fun j => nth j v 0 * nth c (1 :: f (nth (nth j idx 0%nat) xs p0)) 0) (seq 0 (length idx))) = 0).
  { intros c Hc.
    rewrite (Rsum_map_ext _ (fun j => Rsum (map (fun i => nth j v 0 * (nth i (nth j K []) 0 * nth c (nth i D []) 0)) (seq 0 (length D))))).
    - rewrite Rsum_swap. apply Rsum_zero. intros a Ha. apply in_map_iff in Ha as (i & <- & Hi). apply in_seq in Hi.
      rewrite (Rsum_map_ext _ (fun j => (nth j v 0 * entry K j i) * nth c (nth i D []) 0)) by (intros; unfold entry; ring).
      rewrite Rsum_map_scal_r. specialize (Nv i ltac:(lia)). rewrite LK in Nv. rewrite Nv. ring.
    - intros j' Hj'. apply in_seq in Hj'. destruct (HK j' ltac:(lia)) as [K1 K2]. rewrite K2 by auto.
      rewrite Rsum_map_scal. unfold comb. f_equal. rewrite (map2_seq _ _ _ 0 []) by auto. rewrite K1. reflexivity. }
  apply SI; auto; try lia.
  - etransitivity; [|exact (Hc 0%nat ltac:(lia))]. rewrite <- (wsum_at_one idx) by lia. rewrite wsum_at_seq by lia.
    apply Rsum_map_ext. intros; simpl; ring.
  - intros c Hc'. etransitivity; [|exact (Hc (S c) ltac:(lia))]. rewrite wsum_at_seq by lia. reflexivity.
Qed.
Print Assumptions C34_caratheodory.
(** a quadratic curve through four weighted points, one of weight zero *)
Example C34_case : forall mode, mode <> MOther ->
  let f x := [x; x * x] in
  let ws := [1; 0; 2; 1] in
  (forall x, In x [-1; 0; 1; 2] -> (fun x => map Fin (f x)) x = map Fin (f x) /\ length (f x) = 2%nat) /\
  Forall (fun x => 0 <= x) ws /\ 0 < Rsum ws /\
  (forall A, length A = 4%nat -> matrix 3 A ->
     (forall a, In a A -> exists x, In x [-1; 0; 1; 2] /\ a = 1 :: f x) -> null_basis_at (gauss_null 3) 3 A).
Proof.
  intros mode Hm f ws. split; [intros; split; reflexivity|]. split; [repeat constructor; lra|]. split; [simpl; lra|].
  intros. apply gauss_null_ok.
Qed.

(** The null-space routine of the code meets that requirement: with an exact singular
    value decomposition and a threshold below every positive singular value it returns a
    basis of the left null space. *)
Theorem C34_svd_null_basis :
  forall svd eps rcond (A : list (list R)) k qT s,
    A <> [] -> matrix k A ->
    svd (map (map Fin) A) = (map (map Fin) qT, map Fin s) -> svd_ok A k qT s ->
    let rc := match rcond with
              | None => eps * IZR (Z.of_nat (Nat.max (length A) k))
              | Some r => if Rlt_dec r 0 then eps else r
              end in
    0 <= rc -> (forall x, In x s -> 0 < x -> rc * hd 0 s < x) ->
    null_basis_at (resolve_null_basis EROps svd (Fin eps) (option_map Fin rcond)) k A.
Proof.
  intros svd eps rcond A k qT s H1 H2 H3 H4 rc H5 H6.
  now apply (resolve_null_basis_ok svd eps rcond A k qT s).
Qed.
Print Assumptions C34_svd_null_basis.
Example C34_svd_case :
  let A := [[1; 1]; [1; 1]; [1; -1]; [1; -1]] in
  let h := 1 / 2 in
  let qT := [[h; h; h; h]; [h; h; -h; -h]; [h; -h; h; -h]; [h; -h; -h; h]] in
  svd_ok A 2 qT [2; 2] /\ (forall x, In x [2; 2] -> 0 < x -> 1 / 1000 * IZR (Z.of_nat (Nat.max (length A) 2)) * hd 0 [2; 2] < x).
Proof.
  intros A h qT. split.
  - unfold svd_ok. cbn [length A]. split; [reflexivity|]. split; [repeat constructor|]. split; [|split; [|split; [|split; [|split]]]].
    + intros i j Hi Hj. unfold qT in *. cbn [length] in *.
      do 4 (destruct i as [|i]; [do 4 (destruct j as [|j]; [unfold dot, h; cbn; lra|]); lia|]). lia.
    + intros v Hv i Hi. destruct v as [|a [|b [|c [|d [|]]]]]; try discriminate.
      do 4 (destruct i as [|i]; [unfold comb, dot, qT, h; cbn; lra|]). lia.
    + reflexivity.
    + repeat constructor; lra.
    + intros i j Hij Hj. cbn [length] in Hj. destruct j as [|[|j]]; [| |lia]; destruct i as [|[|i]]; try lia; cbn; lra.
    + exists [[1; 0]; [0; 1]]. split; [reflexivity|]. split.
      * intros i j Hi Hj. cbn [length] in *. destruct i as [|[|i]]; [| |lia]; (destruct j as [|[|j]]; [| |lia]); unfold dot; cbn; lra.
      * intros i c Hi Hc. destruct c as [|[|c]]; [| |lia];
          (do 4 (destruct i as [|i]; [unfold entry, A, qT, h; cbn; lra|])); lia.
  - intros x Hx _. cbn [length A hd]. replace (IZR (Z.of_nat (Nat.max 4 2))) with 4 by reflexivity.
    destruct Hx as [<-|[<-|[]]]; lra.
Qed.

(** ** C35: tree recombination *)
(** [z] stands for [ceil(log(n / m, factor))]; only the upper bound is used.  The padding
    is non-negative and makes the clusters equal. *)
Theorem C35_padding :
  forall clog n m factor z,
    (0 < n)%nat -> (0 < m)%nat -> (2 <= factor)%nat ->
    clog n m factor = Ok z -> ln (INR n / INR m) / ln (INR factor) <= IZR z ->
    exists padding depth,
      prepare_tree clog n m factor = Ok (padding, (factor * m)%nat, depth) /\
      (1 <= depth)%nat /\ (0 <= padding)%Z /\
      (n + Z.to_nat padding = factor ^ (depth - 1) * (factor * m))%nat.
Proof.
  intros clog n m factor z Hn Hm Hf E Hz.
  set (depth := Z.to_nat (Z.max 1 z)).
  assert (Hd : (n <= m * factor ^ depth)%nat).
  { apply INR_le. rewrite mult_INR, pow_INR.
    assert (Pn : 0 < INR n) by (apply lt_0_INR; lia). assert (Pm : 0 < INR m) by (apply lt_0_INR; lia).
    assert (Pf : 2 <= INR factor) by (apply (le_INR 2); lia).
    assert (Pl : 0 < ln (INR factor)) by (rewrite <- ln_1; apply ln_increasing; lra).
    assert (Hl : ln (INR n / INR m) <= ln (INR factor ^ depth)).
    { rewrite ln_pow by lra.
      assert (IZR z <= INR depth).
      { unfold depth. rewrite INR_IZR_INZ. apply IZR_le. lia. }
      apply (Rmult_le_compat_r (ln (INR factor))) in Hz; [|lra]. unfold Rdiv at 1 in Hz. rewrite Rmult_assoc, Rinv_l, Rmult_1_r in Hz by lra.
      apply Rle_trans with (1 := Hz). apply Rmult_le_compat_r; lra. }
    assert (Pp : 0 < INR factor ^ depth) by (apply pow_lt; lra).
    assert (Pq : 0 < INR n / INR m) by (apply Rdiv_lt_0_compat; lra).
    destruct (Rle_lt_dec (INR n / INR m) (INR factor ^ depth)) as [L|L].
    - apply (Rmult_le_compat_l (INR m)) in L; [|lra]. unfold Rdiv in L. rewrite (Rmult_comm (INR n)), <- Rmult_assoc, Rinv_r in L by lra. lra.
    - apply ln_increasing in L; lra. }
  exists (Z.of_nat (m * factor ^ depth) - Z.of_nat n)%Z, depth. unfold prepare_tree. rewrite E. cbn [bind]. fold depth.
  split; [reflexivity|]. split; [unfold depth; lia|]. split; [lia|].
  replace (n + Z.to_nat (Z.of_nat (m * factor ^ depth) - Z.of_nat n))%nat with (m * factor ^ depth)%nat by lia.
  assert (1 <= depth)%nat by (unfold depth; lia). destruct depth as [|d]; [lia|]. cbn [Nat.pow]. rewrite Nat.sub_succ, Nat.sub_0_r. ring.
Qed.
Print Assumptions C35_padding.

Lemma tree_hyps (clog : nat -> nat -> nat -> result Z) n m factor z :
  (0 < n)%nat -> (2 <= factor)%nat -> clog n (S m) factor = Ok z -> ln (INR n / INR (S m)) / ln (INR factor) <= IZR z ->
  (exists z, clog n (S m) factor = Ok z /\ Z.to_nat (Z.max 1 z) = Z.to_nat (Z.max 1 z)) /\ (n <= S m * factor ^ Z.to_nat (Z.max 1 z))%nat.
Proof.
  intros Hn Hf E Hz. split; [eauto|].
  destruct (C35_padding clog n (S m) factor z) as (p & d & E' & Hd & Hp & Hs); auto; try lia.
  unfold prepare_tree in E'. rewrite E in E'. cbn [bind] in E'. injection E' as <- <-. lia.
Qed.

(** After any number t of levels the weights are non-negative, sum to one, keep the centre
    of mass, refer to distinct data points of positive weight, and at most
    (m + 1) * factor^(depth - t) are non-zero. *)
Theorem C35_every_level :
  forall P (p0 : P) (f : P -> list R) m factor null clog (xs : list P) (ws : list R) z t,
    (forall x, In x xs -> length (f x) = m) ->
    length ws = length xs -> Forall (fun x => 0 <= x) ws -> 0 < Rsum ws -> (2 <= factor)%nat ->
    clog (length xs) (S m) factor = Ok z -> ln (INR (length xs) / INR (S m)) / ln (INR factor) <= IZR z ->
    (forall A, length A = (factor * S m)%nat -> matrix (S m) A ->
       (forall a, In a A -> hd 0 a = 1) -> null_basis_at null (S m) A) ->
    let depth := Z.to_nat (Z.max 1 z) in
    let padding := (S m * factor ^ depth - length xs)%nat in
    let g i c := nth c (f (nth i xs p0)) 0 in
    (t <= depth)%nat ->
    exists w ix,
      foriM t (fun _ => tree_body EROps null (map (fun x => map Fin (f x)) xs) (factor * S m))
        (map Fin (map (fun a => a / Rsum ws) ws ++ repeat 0 padding), seq 0 (length xs + padding))
        = Ok (map Fin w, ix) /\
      length w = length ix /\
      Forall (fun x => 0 <= x) w /\
      Rsum w = 1 /\
      (forall c, (c < m)%nat ->
         wsum_at (fun i => g i c) ix w = wsum_at (fun i => g i c) (seq 0 (length xs)) ws / Rsum ws) /\
      (forall e, (e < length w)%nat -> nth e w 0 <> 0 -> (nth e ix 0 < length xs)%nat /\ 0 < nth (nth e ix 0%nat) ws 0) /\
      (forall e e', (e < length w)%nat -> (e' < length w)%nat -> nth e w 0 <> 0 -> nth e' w 0 <> 0 ->
         nth e ix 0%nat = nth e' ix 0%nat -> e = e') /\
      (nonzeros w <= S m * factor ^ (depth - t))%nat.
Proof.
  intros P p0 f m factor null clog xs ws z t H1 H2 H3 H4 H5 H6 H7 H8 depth padding g Ht.
  assert (Hn : (0 < length xs)%nat).
  { destruct xs; [|simpl; lia]. destruct ws; [simpl in H4; lra|discriminate]. }
  destruct (tree_hyps clog (length xs) m factor z Hn H5 H6 H7) as [Hc Hd]. fold depth in Hd.
  assert (Hphi : forall x, In x xs -> (fun x => map Fin (f x)) x = map Fin (f x) /\ length (f x) = m) by (intros; split; auto).
  assert (Hc' : exists z, clog (length xs) (S m) factor = Ok z /\ depth = Z.to_nat (Z.max 1 z)) by (exists z; auto).
  destruct (levels p0 (fun x => map Fin (f x)) f m factor null clog xs ws Hphi H2 H3 H4 ltac:(lia) depth Hc' Hd H8 t Ht) as (w & ix & E & HL).
  destruct HL as (L1 & L2 & Pw & Sw & Cw & Iw & Dw & Zw). rewrite map_length in *.
  exists w, ix. rewrite L1.
  split.
  { etransitivity; [|exact E]. rewrite map_map.
    rewrite (N_eq' m factor clog xs ws H2 ltac:(lia) depth Hc' Hd). reflexivity. }
  split; [lia|]. do 2 (split; [assumption|]). split; [|auto].
  intros c Hc2. etransitivity; [|exact (Cw c Hc2)]. rewrite !wsum_at_seq by lia. apply Rsum_map_ext. intros e He. apply in_seq in He.
  destruct (Req_EM_T (nth e w 0) 0) as [Z|Z]; [rewrite Z; lra|]. f_equal.
  destruct (Iw e) as [I1 _]; [lia|auto|]. unfold entry. rewrite Nat.min_l by lia.
  rewrite (GreedyProofs.nth_map_lt _ _ _ p0) by auto. reflexivity.
Qed.
Print Assumptions C35_every_level.

(** The whole reduction. *)
Theorem C35_tree :
  forall P Y (p0 : P) (y0 : Y) phi (f : P -> list R) m factor null clog (xs : list P) (ws : list R) z mode,
    (forall x, In x xs -> phi x = map Fin (f x) /\ length (f x) = m) ->
    length ws = length xs -> Forall (fun x => 0 <= x) ws -> 0 < Rsum ws -> (2 <= factor)%nat ->
    clog (length xs) (S m) factor = Ok z -> ln (INR (length xs) / INR (S m)) / ln (INR factor) <= IZR z ->
    (forall A, length A = (factor * S m)%nat -> matrix (S m) A ->
       (forall a, In a A -> hd 0 a = 1) -> null_basis_at null (S m) A) ->
    mode <> MOther ->
    let g i c := nth c (f (nth i xs p0)) 0 in
    exists idx wt,
      tree_reduce EROps p0 y0 phi null clog factor mode (mkData xs (map Fin ws) None)
        = Ok (mkCS (map Z.of_nat idx) (map Fin wt) (mkData xs (map Fin ws) None)) /\
      length wt = length idx /\
      Forall (fun a => 0 <= a) wt /\
      Rsum wt = 1 /\
      (forall c, (c < m)%nat ->
         wsum_at (fun i => g i c) idx wt = wsum_at (fun i => g i c) (seq 0 (length xs)) ws / Rsum ws) /\
      (forall j, (j < length idx)%nat -> nth j wt 0 <> 0 ->
         (nth j idx 0 < length xs)%nat /\ 0 < nth (nth j idx 0%nat) ws 0) /\
      (forall j j', (j < length idx)%nat -> (j' < length idx)%nat -> nth j wt 0 <> 0 -> nth j' wt 0 <> 0 ->
         nth j idx 0%nat = nth j' idx 0%nat -> j = j') /\
      (nonzeros wt <= Nat.min (length xs) (S m))%nat.
Proof.
  intros P Y p0 y0 phi f m factor null clog xs ws z mode H1 H2 H3 H4 H5 H6 H7 H8 H9 g.
  assert (Hn : (0 < length xs)%nat).
  { destruct xs; [|simpl; lia]. destruct ws; [simpl in H4; lra|discriminate]. }
  destruct (tree_hyps clog (length xs) m factor z Hn H5 H6 H7) as [_ Hd].
  destruct (tree_outcome p0 y0 phi f m factor null clog xs ws H1 H2 H3 H4 ltac:(lia) (Z.to_nat (Z.max 1 z))
     (ex_intro _ z (conj H6 eq_refl)) Hd H8 mode H9) as (idx & wt & E & L1 & L2 & W & S1 & C1 & I & D & NZ).
  exists idx, wt. do 7 (split; [assumption|]). assumption.
Qed.
Print Assumptions C35_tree.
(** nine points on a line, factor 2: ceil(log2(9 / 2)) = 3 *)
Example C35_case :
  let xs := map INR (seq 0 9) in
  ln (INR (length xs) / INR 2) / ln (INR 2) <= IZR 3 /\
  (forall A, length A = (2 * 2)%nat -> matrix 2 A -> (forall a, In a A -> hd 0 a = 1) -> null_basis_at (gauss_null 2) 2 A).
Proof.
  intros xs. split; [|intros; apply gauss_null_ok].
  unfold xs. rewrite map_length, seq_length. replace (INR 2) with 2 by (simpl; lra). replace (INR 9) with 9 by (simpl; lra).
  assert (P : 0 < ln 2) by (rewrite <- ln_1; apply ln_increasing; lra).
  apply (Rmult_le_reg_r (ln 2)); auto. unfold Rdiv at 1. rewrite Rmult_assoc, Rinv_l, Rmult_1_r by lra.
  replace (3 * ln 2) with (ln (2 ^ 3)) by (rewrite ln_pow by lra; simpl; lra).
  destruct (Rle_lt_dec (ln (9 / 2)) (ln (2 ^ 3))); auto. apply ln_lt_inv in r; lra.
Qed.

(** ** C36: the modes *)
(** Caratheodory: in each mode the result is the list of all entries of non-zero weight,
    followed by copies of one valid index with weight zero, up to the documented size. *)
Theorem C36_caratheodory_modes :
  forall P Y (p0 : P) (y0 : Y) phi (f : P -> list R) m null (xs : list P) (ws : list R),
    (forall x, In x xs -> phi x = map Fin (f x) /\ length (f x) = m) ->
    length ws = length xs -> Forall (fun x => 0 <= x) ws -> 0 < Rsum ws ->
    (forall A, length A = length xs -> matrix (S m) A ->
       (forall a, In a A -> exists x, In x xs /\ a = 1 :: f x) -> null_basis_at null (S m) A) ->
    exists idx wt,
      length wt = length idx /\ Forall (fun a => 0 < a) wt /\ Rsum wt = 1 /\
      forall mode, mode <> MOther ->
        exists i0 q,
          carath_reduce EROps p0 y0 phi null mode (mkData xs (map Fin ws) None)
            = Ok (mkCS (map Z.of_nat (idx ++ repeat i0 q)) (map Fin (wt ++ repeat 0 q)) (mkData xs (map Fin ws) None)) /\
          Forall (fun i => (i < length xs)%nat /\ 0 < nth i ws 0) (idx ++ repeat i0 q) /\
          (length idx + q = match mode with
                            | MImplicitExplicit => Nat.min (length xs) (S m)
                            | MImplicit => length xs
                            | _ => length idx
                            end)%nat.
Proof.
  intros P Y p0 y0 phi f m null xs ws H1 H2 H3 H4 H5.
  pose proof (carath_outcome p0 y0 phi f m null xs ws H1 H2 H3 H4 H5) as CO.
  destruct (CO MExplicit ltac:(discriminate)) as (idx & wt & E & L1 & L2 & I & W & S1 & _ & _ & NZ). cbn [mode_size] in L2.
  exists idx, wt. split; [assumption|]. split; [|split; [assumption|]].
  { apply Forall_forall. intros a Ha. rewrite Forall_forall in W. specialize (W a Ha).
    destruct (Req_EM_T a 0) as [Z|]; [exfalso|lra]. subst a. rewrite L2 in L1. unfold nonzeros in L1.
    clear - Ha L1. assert (G : forall l, In 0 l -> (length (filter (fun x => if Req_EM_T x 0 then false else true) l) < length l)%nat).
    { induction l as [|b l IH]; [intros []|]. intros [->|Hi].
      - simpl. destruct (Req_EM_T 0 0); [|congruence]. pose proof (GreedyProofs.filter_len_le (fun x => if Req_EM_T x 0 then false else true) l). lia.
      - simpl. specialize (IH Hi). destruct (Req_EM_T b 0); simpl; lia. }
    apply G in Ha. lia. }
  intros mode Hm. destruct (CO mode Hm) as (idx' & wt' & E' & L1' & L2' & I' & W' & S1' & _ & _ & NZ').
  destruct (modes_fill p0 y0 _ _ (length xs) (S m) mode idx wt idx' wt'
     (carath_run p0 y0 phi f m null xs ws H1 H2 H3 H4) Hm E E' L2 NZ L1 S1 S1') as (i0 & q & -> & ->).
  exists i0, q. split; [assumption|]. split; [assumption|].
  rewrite app_length, repeat_length in L2'. rewrite L2'.

  destruct mode; cbn [mode_size]; auto; [|congruence].
  rewrite L2. unfold nonzeros. rewrite filter_app, app_length.
  rewrite (filter_zero_repeat q). simpl. lia.
Qed.
Print Assumptions C36_caratheodory_modes.

(** Tree: the same, except that the fill index is not known to be a valid index. *)
Theorem C36_tree_modes_partial :
  forall P Y (p0 : P) (y0 : Y) phi (f : P -> list R) m factor null clog (xs : list P) (ws : list R) z,
    (forall x, In x xs -> phi x = map Fin (f x) /\ length (f x) = m) ->
    length ws = length xs -> Forall (fun x => 0 <= x) ws -> 0 < Rsum ws -> (2 <= factor)%nat ->
    clog (length xs) (S m) factor = Ok z -> ln (INR (length xs) / INR (S m)) / ln (INR factor) <= IZR z ->
    (forall A, length A = (factor * S m)%nat -> matrix (S m) A ->
       (forall a, In a A -> hd 0 a = 1) -> null_basis_at null (S m) A) ->
    exists idx wt,
      length wt = length idx /\ Forall (fun a => 0 < a) wt /\ Rsum wt = 1 /\
      Forall (fun i => (i < length xs)%nat /\ 0 < nth i ws 0) idx /\ NoDup idx /\
      forall mode, mode <> MOther ->
        exists i0 q,
          tree_reduce EROps p0 y0 phi null clog factor mode (mkData xs (map Fin ws) None)
            = Ok (mkCS (map Z.of_nat (idx ++ repeat i0 q)) (map Fin (wt ++ repeat 0 q)) (mkData xs (map Fin ws) None)) /\
          (length idx + q = match mode with
                            | MImplicitExplicit => Nat.min (length xs) (S m)
                            | MImplicit => length xs
                            | _ => length idx
                            end)%nat.
Proof.
  intros P Y p0 y0 phi f m factor null clog xs ws z H1 H2 H3 H4 H5 H6 H7 H8.
  assert (Hn : (0 < length xs)%nat).
  { destruct xs; [|simpl; lia]. destruct ws; [simpl in H4; lra|discriminate]. }
  destruct (tree_hyps clog (length xs) m factor z Hn H5 H6 H7) as [_ Hd].
  pose proof (tree_outcome p0 y0 phi f m factor null clog xs ws H1 H2 H3 H4 ltac:(lia) (Z.to_nat (Z.max 1 z))
     (ex_intro _ z (conj H6 eq_refl)) Hd H8) as CO.
  destruct (CO MExplicit ltac:(discriminate)) as (idx & wt & E & L1 & L2 & W & S1 & _ & I & D & NZ). cbn [mode_size] in L2.
  assert (Hpos : Forall (fun a => 0 < a) wt).
  { apply Forall_forall. intros a Ha. rewrite Forall_forall in W. specialize (W a Ha).
    destruct (Req_EM_T a 0) as [Z|]; [exfalso|lra]. subst a. rewrite L2 in L1. unfold nonzeros in L1.
    clear - Ha L1. assert (G : forall l, In 0 l -> (length (filter (fun x => if Req_EM_T x 0 then false else true) l) < length l)%nat).
    { induction l as [|b l IH]; [intros []|]. intros [->|Hi].
      - simpl. destruct (Req_EM_T 0 0); [|congruence]. pose proof (GreedyProofs.filter_len_le (fun x => if Req_EM_T x 0 then false else true) l). lia.
      - simpl. specialize (IH Hi). destruct (Req_EM_T b 0); simpl; lia. }
    apply G in Ha. lia. }
  assert (Hnz : forall j, (j < length idx)%nat -> nth j wt 0 <> 0).
  { intros j Hj. rewrite Forall_forall in Hpos. assert (0 < nth j wt 0) by (apply Hpos, nth_In; lia). lra. }
  exists idx, wt. split; [assumption|]. split; [assumption|]. split; [assumption|]. split; [|split].
  { apply Forall_forall. intros i Hi. apply (In_nth _ _ 0%nat) in Hi as (j & Hj & <-). apply I; auto. }
  { apply (proj2 (NoDup_nth idx 0%nat)). intros i j Hi Hj Eij. apply D; auto. }
  intros mode Hm. destruct (CO mode Hm) as (idx' & wt' & E' & L1' & L2' & W' & S1' & _ & _ & _ & NZ').
  destruct (modes_fill p0 y0 _ _ (length xs) (S m) mode idx wt idx' wt'
     (tree_run p0 y0 phi f m null xs ws H1 H2 H3 H4 clog factor (ex_intro _ _ E)) Hm E E' L2 NZ L1 S1 S1') as (i0 & q & -> & ->).
  exists i0, q. split; [assumption|].
  rewrite app_length, repeat_length in L2'. rewrite L2'.
  destruct mode; cbn [mode_size]; auto; [|congruence].
  rewrite L2. unfold nonzeros. rewrite filter_app, app_length.
  rewrite (filter_zero_repeat q). simpl. lia.
Qed.
Print Assumptions C36_tree_modes_partial.

(** Finding: the fill index of the tree can be a padding index, past the end of the data.
    Five equal points with uniform weights, the identity test function, factor 2 (so two
    levels and eight slots).  Every node matrix met is all ones; the oracle answers with an
    orthonormal basis of its null space. *)
Definition ones42 : list (list Q) := repeat [1; 1]%Q 4.
Definition had : list (list Q) :=
  [[1#2; 1#2; -1#2; -1#2]; [1#2; -1#2; 1#2; -1#2]; [1#2; -1#2; -1#2; 1#2]]%Q.
Definition is_ones (M : list (list EQ)) : bool :=
  (length M =? 4)%nat && forallb (fun r => (length r =? 2)%nat &&
     forallb (fun v => match v with Fin q => Qeq_bool q 1 | _ => false end) r) M.
Definition had_null (M : list (list EQ)) : list (list EQ) * nat :=
  if is_ones M then (map (map Fin) had, 3%nat) else ([], 0%nat).
Definition five : Data Q unit EQ := mkData (repeat 1%Q 5) (repeat (Fin 1%Q) 5) None.
Theorem C36_tree_index_out_of_range_refuted :
  null_ok (map (map Q2R) ones42) 2 (map (map Q2R) had) 3 /\
  orthonormal 4 (map (map Q2R) had) /\
  exists c, tree_reduce EQOps 0%Q tt (fun x => [Fin x]) had_null (fun _ _ _ => Ok 2%Z) 2 MImplicitExplicit five = Ok c /\
    c_idx c = [2; 5]%Z /\ length (d_x (c_pre c)) = 5%nat.
Proof.
  assert (E1 : Q2R 1 = 1) by (unfold Q2R; simpl; lra). assert (E2 : Q2R (1#2) = / 2) by (unfold Q2R; simpl; lra).
  assert (E3 : Q2R (-1#2) = - / 2) by (unfold Q2R; simpl; lra).
  unfold ones42, had. cbn [repeat map]. rewrite !E1, !E2, !E3.
  split; [|split].
  - split; [simpl; lia|]. split; [repeat constructor|]. split; [|split].
    + intros j Hj c Hc. destruct c as [|[|c]]; [| |lia]; do 3 (destruct j as [|j]; [unfold entry; cbn; lra|]); lia.
    + intros cs L H. destruct cs as [|a [|b [|c [|]]]]; try discriminate.
      pose proof (H 0%nat ltac:(simpl; lia)) as H0. pose proof (H 1%nat ltac:(simpl; lia)) as H1.
      pose proof (H 2%nat ltac:(simpl; lia)) as H2. unfold comb in *. cbn in *. repeat constructor; lra.
    + intros v L Hv. destruct v as [|a [|b [|c [|d [|]]]]]; try discriminate.
      pose proof (Hv 0%nat ltac:(lia)) as H0. unfold entry in H0. cbn in H0.
      exists [(a + b - c - d) / 2; (a - b + c - d) / 2; (a - b - c + d) / 2]. split; [reflexivity|].
      intros i Hi. do 4 (destruct i as [|i]; [unfold comb; cbn; lra|]). cbn in Hi. lia.
  - intros i j Hi Hj. cbn [length] in *.
    do 3 (destruct i as [|i]; [do 3 (destruct j as [|j]; [unfold dot; cbn; lra|]); lia|]). lia.
  - eexists. split; [vm_compute; reflexivity|]. split; reflexivity.
Qed.
Print Assumptions C36_tree_index_out_of_range_refuted.

(** an unknown mode is rejected when the solver is built; a mode changed afterwards still
    stops the reduction *)
Theorem C36_unknown_mode :
  check_mode MOther = Err ValueError /\
  (forall mode, mode <> MOther -> check_mode mode = Ok tt) /\
  (forall V P Y (O : FOps V) (p0 : P) (y0 : Y) phi null d c,
     carath_reduce O p0 y0 phi null MOther d <> Ok c) /\
  (forall V P Y (O : FOps V) (p0 : P) (y0 : Y) phi null clog factor d c,
     tree_reduce O p0 y0 phi null clog factor MOther d <> Ok c).
Proof.
  split; [reflexivity|]. split; [intros [] H; auto; congruence|]. split; intros until c; intros E.
  - unfold carath_reduce in E. destruct (unpack2 (normalize O true d)) as [[a b]|]; [|discriminate]. cbn [bind] in E.
    destruct (co_linearize O (push_forward O phi true a) b) as [[s sw] ix]. destruct (null s). discriminate.
  - unfold tree_reduce in E. destruct (unpack2 (normalize O true d)) as [[a b]|]; [|discriminate]. cbn [bind] in E.
    destruct (prepare_tree _ _ _ _) as [[[x y] w]|]; [|discriminate]. cbn [bind] in E.
    destruct (x <? 0)%Z; [discriminate|]. destruct (foriM _ _ _) as [[u v]|]; discriminate.
Qed.
Print Assumptions C36_unknown_mode.

(** ** C44: both recombination solvers reject supervised data *)
Theorem C44_recombination_supervised_refuted {V P Y} (O : FOps V) (p0 : P) (y0 : Y) phi null clog factor mode
    (x : list P) (w : list V) (y : list Y) :
  carath_reduce O p0 y0 phi null mode (mkData x w (Some y)) = Err ValueError /\
  tree_reduce O p0 y0 phi null clog factor mode (mkData x w (Some y)) = Err ValueError.
Proof. split; reflexivity. Qed.
Print Assumptions C44_recombination_supervised_refuted.
