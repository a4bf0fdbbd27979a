(** * Tree recombination: one level and the whole reduction *)
From Coq Require Import List Arith ZArith Lia Reals Lra Permutation Sorted Bool.
From Verif Require Import Num RSum Jax JaxFacts DataModel DataProofs GreedyProofs GreedyProofs2
  MetricProofs2 RecSpec RecModel RecProofs RecProofs2 RecProofs3 RecProofs4 RecProofs5 RecProofs6.
Import ListNotations.
Local Open Scope R_scope.

Lemma clamp_nat n i : clamp n (Z.of_nat i) = Nat.min i (n - 1).
Proof. unfold clamp, wrap. destruct (Z.ltb_spec (Z.of_nat i) 0); [lia|]. lia. Qed.

(** real part of a finite vector *)
Definition unfin (v : ER) : R := match v with Fin r => r | _ => 0 end.
Lemma unfin_fin l : map unfin (map Fin l) = l.
Proof. rewrite map_map. apply map_id. Qed.

(** the centroid over the reals *)
Definition rcent (m : nat) (nodes : list (list R)) (w : list R) : list R :=
  map (fun c => if Req_EM_T (Rsum w) 0 then 0
                else Rsum (map2 (fun x a => nth c x 0 * a) nodes w) / Rsum w) (seq 0 m).
Lemma centroid_fin m nodes w : Forall (fun x => 0 <= x) w ->
  centroid EROps m (map (map Fin) nodes) (map Fin w) = (map Fin (rcent m nodes w), Fin (Rsum w)).
Proof.
  intros Hp. unfold centroid, rcent. rewrite fsum_fin. f_equal. rewrite map_map. apply map_ext. intros c.
  assert (E : map2 (fun x a => fmul EROps (nth c x (f0 EROps)) a) (map (map Fin) nodes) (map Fin w)
              = map Fin (map2 (fun x a => nth c x 0 * a) nodes w)).
  { rewrite map2_map, map_map2. apply map2_ext. intros x a _. change (f0 EROps) with (Fin 0 : ER). now rewrite nth_map_fin. }
  rewrite E, fsum_fin. destruct (Req_EM_T (Rsum w) 0) as [Z|Z].
  - rewrite Z.
    assert (Rsum (map2 (fun x a => nth c x 0 * a) nodes w) = 0) as ->; [|now rewrite fdiv_zero_zero].
    apply Rsum_zero. intros y Hy. rewrite map2_combine in Hy. apply in_map_iff in Hy as ([x a] & <- & Hxa). simpl.
    apply in_combine_r in Hxa. assert (a = 0) as ->; [|lra].
    apply (In_nth _ _ 0) in Hxa as (i & Hi & <-).
    assert (G : forall l, Forall (fun x => 0 <= x) l -> Rsum l = 0 -> forall i, nth i l 0 = 0).
    { clear. induction l as [|b l IH]; intros Hp Hs i; [now destruct i|]. inversion Hp; subst. simpl in Hs.
      assert (0 <= Rsum l) by (apply Rsum_nonneg; intros a Ha; rewrite Forall_forall in H2; auto).
      destruct i; simpl; [lra|]. apply IH; auto. lra. }
    now apply G.
  - rewrite fdiv_fin by auto. reflexivity.
Qed.

Section Level.
  Variables (F : list (list R)) (m count size : nat) (ws : list R).
  Variable null : list (list ER) -> list (list ER) * nat.
  Let n := length F.
  Hypothesis HF : matrix m F.
  Hypothesis Hn : (0 < n)%nat.
  Hypothesis Hcount : (0 < count)%nat.
  Hypothesis Hnull : forall A, length A = count -> matrix (S m) A ->
    (forall a, In a A -> hd 0 a = 1) -> null_basis_at null (S m) A.

  (** test function c at data point i; indices past the end read the last point *)
  Let g (c i : nat) : R := entry F (Nat.min i (n - 1)) c.

  (** what holds of the weights and indices between levels; [q] bounds the non-zeros *)
  Definition level_ok (target : nat -> R) (q : nat) (w : list R) (ix : list nat) : Prop :=
    length w = (size * count)%nat /\ length ix = (size * count)%nat /\ Forall (fun x => 0 <= x) w /\
    Rsum w = 1 /\
    (forall c, (c < m)%nat -> wsum_at (g c) ix w = target c) /\
    (forall e, (e < size * count)%nat -> nth e w 0 <> 0 -> (nth e ix 0 < n)%nat /\ 0 < nth (nth e ix 0%nat) ws 0) /\
    (forall e e', (e < size * count)%nat -> (e' < size * count)%nat -> nth e w 0 <> 0 -> nth e' w 0 <> 0 ->
       nth e ix 0%nat = nth e' ix 0%nat -> e = e') /\
    (nonzeros w <= q)%nat.

  Lemma ncols_F : ncols (map (map Fin) F) = m.
  Proof. unfold ncols. destruct F as [|a F']; [simpl in n; unfold n in Hn; lia|]. cbn [map hd]. rewrite map_length. now inversion HF. Qed.

  Lemma tree_level target q w ix : level_ok target (q * count) w ix ->
    exists w' ix', tree_body EROps null (map (map Fin) F) count (map Fin w, ix) = Ok (map Fin w', ix') /\
      level_ok target (S m * q) w' ix'.
  Proof.
    intros (L1 & L2 & Pw & Sw & Cw & Iw & Dw & Zw).
    unfold tree_body. unfold reshape_F.
    pose proof (argsort_perm EROps (map Fin w)) as Po. set (o := argsort EROps (map Fin w)) in *.
    rewrite map_length, L1 in Po.
    assert (Lo : length o = (size * count)%nat) by (rewrite (Permutation_length Po); apply seq_length).
    assert (No : NoDup o) by (eapply Permutation_NoDup; [symmetry; exact Po|apply seq_NoDup]).
    rewrite Lo, Nat.mod_mul by lia. destruct (Nat.eqb_spec count 0) as [|_]; [lia|]. cbn [Nat.eqb andb negb bind].
    rewrite Nat.div_mul by lia. rewrite map_length, L1, Nat.div_mul by lia.
    set (cl := fun i => map (fun j => nth (i + j * count) o 0%nat) (seq 0 size)).
    set (e := fun i j => nth (i + j * count) o 0%nat).
    assert (He : forall i j, (i < count)%nat -> (j < size)%nat -> (e i j < size * count)%nat).
    { intros i j Hi Hj. assert (In (e i j) o) by (apply nth_In; nia). apply (Permutation_in _ Po) in H. apply in_seq in H. lia. }
    assert (Einj : forall i j i' j', (i < count)%nat -> (j < size)%nat -> (i' < count)%nat -> (j' < size)%nat ->
              e i j = e i' j' -> i = i' /\ j = j').
    { intros i j i' j' Hi Hj Hi' Hj' E. apply (proj1 (NoDup_nth o 0%nat) No) in E; try nia. assert (j = j') by (destruct (Nat.lt_trichotomy j j') as [|[|]]; auto; exfalso; nia). subst. lia. }
    assert (clnth : forall i j, (j < size)%nat -> nth j (cl i) 0%nat = e i j).
    { intros i j Hj. unfold cl. now rewrite nth_map_seq. }
    assert (cllen : forall i, length (cl i) = size) by (intros; unfold cl; now rewrite map_length, seq_length).
    (* sums over all entries as sums over clusters *)
    assert (Hsum : forall h : nat -> R, Rsum (map h (seq 0 (size * count)))
              = Rsum (map (fun i => Rsum (map (fun j => h (e i j)) (seq 0 size))) (seq 0 count))).
    { intros h. rewrite <- (Rsum_cells count size (fun i j => h (e i j))).
      rewrite <- (Rsum_perm _ _ (Permutation_map h Po)). rewrite <- (cells_perm o count size Lo) at 1. rewrite map_map. reflexivity. }
    (* cluster weights and centroids *)
    set (wc := fun i => map (fun e => nth e w 0) (cl i)).
    set (W := fun i => Rsum (wc i)).
    set (cen := fun i => rcent m (map (fun e => nth (Nat.min (nth e ix 0%nat) (n - 1)) F []) (cl i)) (wc i)).
    assert (Hw0 : forall x, 0 <= nth x w 0).
    { intros x. destruct (Nat.lt_ge_cases x (length w)); [|rewrite nth_overflow; [lra|auto]].
      rewrite Forall_forall in Pw. apply Pw, nth_In, H. }
    assert (Pwc : forall i, Forall (fun x => 0 <= x) (wc i)).
    { intros i. apply Forall_forall. intros x Hx. apply in_map_iff in Hx as (y & <- & _). apply Hw0. }
    assert (EW : forall i, W i = Rsum (map (fun j => nth (e i j) w 0) (seq 0 size))).
    { intros i. unfold W, wc, cl. rewrite map_map. reflexivity. }
    assert (Ecents : map (fun cl => centroid EROps (ncols (map (map Fin) F))
                (map (fun e => jget [] (map (map Fin) F) (Z.of_nat (nth e ix 0%nat))) cl)
                (map (fun e => nth e (map Fin w) (f0 EROps)) cl)) (map cl (seq 0 count))
              = map (fun i => (map Fin (cen i), Fin (W i))) (seq 0 count)).
    { rewrite map_map. apply map_ext. intros i. rewrite ncols_F.
      assert (E1 : map (fun e => jget [] (map (map Fin) F) (Z.of_nat (nth e ix 0%nat))) (cl i)
                = map (map Fin) (map (fun e => nth (Nat.min (nth e ix 0%nat) (n - 1)) F []) (cl i))).
      { rewrite map_map. apply map_ext. intros x. unfold jget. rewrite map_length, clamp_nat. fold n.
        exact (map_nth (map Fin) F [] _). }
      assert (E2 : map (fun e => nth e (map Fin w) (f0 EROps)) (cl i) = map Fin (wc i)).
      { unfold wc. rewrite map_map. apply map_ext. intros x. apply nth_map_fin. }
      rewrite E1, E2. apply centroid_fin, Pwc. }
    rewrite Ecents. rewrite !map_map. cbn [fst snd].
    set (xs := map (fun i => map Fin (cen i)) (seq 0 count)).
    assert (Lcen : forall i, length (cen i) = m).
    { intros i. unfold cen, rcent. now rewrite map_length, seq_length. }
    (* Caratheodory on the centroids *)
    set (Wl := map W (seq 0 count)).
    assert (SW : Rsum Wl = 1).
    { unfold Wl. rewrite (Rsum_map_ext _ (fun i => Rsum (map (fun j => nth (e i j) w 0) (seq 0 size)))) by (intros; apply EW).
      rewrite <- (Hsum (fun x => nth x w 0)), <- L1, map_nth_seq. exact Sw. }
    assert (Wnn : forall i, 0 <= W i).
    { intros i. apply Rsum_nonneg. intros a Ha. specialize (Pwc i). rewrite Forall_forall in Pwc. auto. }
    assert (xnth : forall i, (i < count)%nat -> nth i xs [] = map Fin (cen i)).
    { intros i Hi. unfold xs. now rewrite nth_map_seq. }
    assert (Wnth : forall i, (i < count)%nat -> nth i Wl 0 = W i).
    { intros i Hi. unfold Wl. now rewrite nth_map_seq. }
    destruct (carath_outcome (Y:=unit) [] tt (fun x : list ER => x) (map unfin) m null xs Wl) with (mode := MImplicit)
      as (idx & wt & Ec & C1 & C2 & C3 & C4 & C5 & C6 & C7 & C8).
    { intros x Hx. apply in_map_iff in Hx as (i & <- & Hi). rewrite unfin_fin. auto. }
    { unfold Wl, xs. now rewrite !map_length. }
    { apply Forall_forall. intros x Hx. apply in_map_iff in Hx as (i & <- & Hi). apply Wnn. }
    { rewrite SW. lra. }
    { intros A HA HM HR. apply Hnull; auto.
      - rewrite HA. unfold xs. now rewrite map_length, seq_length.
      - intros a Ha. destruct (HR a Ha) as (x & _ & ->). reflexivity. }
    { discriminate. }
    assert (Lxs : length xs = count) by (unfold xs; now rewrite map_length, seq_length).
    rewrite Lxs in *. cbn [mode_size] in C2.
    replace (map (fun x : nat => Fin (W x)) (seq 0 count)) with (map Fin Wl) by (unfold Wl; now rewrite map_map).
    rewrite Ec. cbn [bind c_idx c_w].
    rewrite (map_map Z.of_nat Z.to_nat), (map_ext _ (fun i => i)), map_id by (intros; apply Nat2Z.id).
    set (I := fun s => nth s idx 0%nat).
    assert (HI : forall s, (s < count)%nat -> (I s < count)%nat /\ 0 < W (I s)).
    { intros s Hs. apply (Forall_nth' _ idx 0%nat s) in C3; [|lia]. destruct C3 as [A1 A2]. fold (I s) in *. split; auto. now rewrite Wnth in A2. }
    set (u := fun s => nth s wt 0 / W (I s)).
    assert (Ewui : map (fun i => nth i (map cl (seq 0 count)) []) idx = map (fun s => cl (I s)) (seq 0 count)).
    { rewrite (list_seq idx 0%nat) at 1. rewrite C2, map_map. apply map_ext_in. intros s Hs. apply in_seq in Hs.
      destruct (HI s ltac:(lia)) as [H1 _]. unfold I in *. now rewrite nth_map_seq. }
    assert (Eu : map2 (fun a i => fdiv EROps a (nth i (map Fin Wl) (f0 EROps))) (map Fin wt) idx = map (fun s => Fin (u s)) (seq 0 count)).
    { apply (list_ext _ _ (Fin 0)).
      - rewrite map2_length, !map_length, seq_length. lia.
      - intros s Hs. rewrite map2_length, map_length in Hs. rewrite (nth_map2 _ _ _ _ (Fin 0) 0%nat) by (rewrite ?map_length; lia).
        rewrite nth_map_seq by lia. change (f0 EROps) with (Fin 0 : ER). rewrite !nth_map_fin.
        destruct (HI s ltac:(lia)) as [H1 H2]. fold (I s). rewrite Wnth by auto. rewrite fdiv_fin by lra. reflexivity. }
    rewrite Ewui, Eu, map2_map_same, !flatten_cells, map_map.
    set (w' := map (fun p => nth (e (I (fst p)) (snd p)) w 0 * u (fst p)) (cells count size)).
    set (ix' := map (fun p => nth (e (I (fst p)) (snd p)) ix 0%nat) (cells count size)).
    exists w', ix'. split.
    { f_equal. f_equal.
      - unfold w'. rewrite map_map. apply map_ext_in. intros [s j] Hp. apply cells_in in Hp. cbn [fst snd].
        rewrite (nth_map_lt _ _ _ 0%nat) by (rewrite cllen; lia). rewrite clnth by lia.
        change (f0 EROps) with (Fin 0 : ER). rewrite nth_map_fin. reflexivity.
      - apply map_ext_in. intros [s j] Hp. apply cells_in in Hp. cbn [fst snd]. now rewrite clnth by lia. }
    assert (Hu0 : forall s, (s < count)%nat -> 0 <= u s).
    { intros s Hs. destruct (HI s Hs) as [H1 H2]. unfold u. apply Rmult_le_pos; [|apply Rlt_le, Rinv_0_lt_compat; auto].
      apply (Forall_nth' (fun a => 0 <= a)); auto. lia. }
    assert (Hun : forall s, (s < count)%nat -> u s <> 0 -> nth s wt 0 <> 0).
    { intros s Hs Hu Hz. apply Hu. unfold u. rewrite Hz. unfold Rdiv. ring. }
    (* weighted sums of the new state *)
    assert (Hnew : forall h : nat -> R, wsum_at h ix' w'
              = Rsum (map (fun s => u s * Rsum (map (fun j => nth (e (I s) j) w 0 * h (nth (e (I s) j) ix 0%nat)) (seq 0 size))) (seq 0 count))).
    { intros h. unfold wsum_at, ix', w'. rewrite map2_map_same.
      rewrite (Rsum_cells count size (fun s j => nth (e (I s) j) w 0 * u s * h (nth (e (I s) j) ix 0%nat))).
      apply Rsum_map_ext. intros s _. rewrite <- Rsum_map_scal. apply Rsum_map_ext. intros; ring. }
    assert (Lw' : length w' = (size * count)%nat) by (unfold w'; now rewrite map_length, cells_length).
    assert (Lix' : length ix' = (size * count)%nat) by (unfold ix'; now rewrite map_length, cells_length).
    assert (w'nth : forall x, (x < size * count)%nat -> let p := nth x (cells count size) (0%nat, 0%nat) in
              nth x w' 0 = nth (e (I (fst p)) (snd p)) w 0 * u (fst p) /\ nth x ix' 0%nat = nth (e (I (fst p)) (snd p)) ix 0%nat /\
              (fst p < count)%nat /\ (snd p < size)%nat).
    { intros x Hx p. unfold w', ix'. rewrite !(nth_map_lt _ _ _ (0%nat, 0%nat)) by (rewrite cells_length; auto).
      split; [reflexivity|]. split; [reflexivity|].
      assert (In p (cells count size)) as Hp by (apply nth_In; rewrite cells_length; auto).
      destruct p as [a b]. now apply cells_in in Hp. }
    split; [auto|]. split; [auto|]. split; [|split; [|split; [|split; [|split]]]].
    - apply Forall_forall. intros x Hx. apply in_map_iff in Hx as ([s j] & <- & Hp). apply cells_in in Hp. cbn [fst snd].
      apply Rmult_le_pos; auto. apply Hu0. lia.
    - rewrite <- (wsum_at_one ix') by lia. rewrite Hnew.
      rewrite (Rsum_map_ext _ (fun s => nth s wt 0)).
      + rewrite <- C2, <- C1, map_nth_seq. exact C5.
      + intros s Hs. apply in_seq in Hs. destruct (HI s ltac:(lia)) as [H1 H2].
        rewrite (Rsum_map_ext _ (fun j => nth (e (I s) j) w 0)) by (intros; lra). rewrite <- EW. unfold u. field. lra.
    - intros c Hc. rewrite Hnew.
      transitivity (wsum_at (fun i => nth c (map unfin (nth i xs [])) 0) idx wt).
      + rewrite wsum_at_seq by lia. rewrite C2. apply Rsum_map_ext. intros s Hs. apply in_seq in Hs.
        destruct (HI s ltac:(lia)) as [H1 H2]. fold (I s). rewrite xnth by auto. rewrite unfin_fin.
        unfold cen, rcent. rewrite nth_map_seq by auto. fold (W (I s)). destruct (Req_EM_T (W (I s)) 0) as [Z|_]; [lra|].
        assert (E : Rsum (map2 (fun x a => nth c x 0 * a) (map (fun e => nth (Nat.min (nth e ix 0%nat) (n - 1)) F []) (cl (I s))) (wc (I s)))
                  = Rsum (map (fun j => nth (e (I s) j) w 0 * g c (nth (e (I s) j) ix 0%nat)) (seq 0 size))).
        { unfold wc. rewrite map2_map_same. unfold cl. rewrite map_map. apply Rsum_map_ext. intros j _. unfold g, entry, e. ring. }
        rewrite E. unfold u. field. lra.
      + rewrite C6 by auto. rewrite SW. unfold Rdiv. rewrite Rinv_1, Rmult_1_r. rewrite <- (Cw c Hc).
        rewrite !wsum_at_seq by (rewrite ?seq_length; unfold Wl; rewrite ?map_length, ?seq_length; lia).
        rewrite L2, seq_length. rewrite (Hsum (fun x => nth x w 0 * g c (nth x ix 0%nat))).
        apply Rsum_map_ext. intros i Hi. apply in_seq in Hi. rewrite seq_nth by lia. cbn [Nat.add]. rewrite Wnth, xnth by lia.
        rewrite unfin_fin. unfold cen, rcent. rewrite nth_map_seq by auto. fold (W i).
        assert (E : Rsum (map2 (fun x a => nth c x 0 * a) (map (fun e => nth (Nat.min (nth e ix 0%nat) (n - 1)) F []) (cl i)) (wc i))
                  = Rsum (map (fun j => nth (e i j) w 0 * g c (nth (e i j) ix 0%nat)) (seq 0 size))).
        { unfold wc. rewrite map2_map_same. unfold cl. rewrite map_map. apply Rsum_map_ext. intros j _. unfold g, entry, e. ring. }
        rewrite E. destruct (Req_EM_T (W i) 0) as [Z|Z]; [|field; auto].
        rewrite Z, Rmult_0_r. symmetry. apply Rsum_zero. intros y Hy. apply in_map_iff in Hy as (j & <- & Hj).
        assert (nth (e i j) w 0 = 0) as ->; [|lra].
        assert (nth (e i j) w 0 <= W i); [|specialize (Hw0 (e i j)); lra].
        rewrite EW. clear - Hj Hw0. induction (seq 0 size) as [|b l IH]; [contradiction|]. cbn [map Rsum].
        assert (0 <= Rsum (map (fun j => nth (e i j) w 0) l)).
        { apply Rsum_nonneg. intros a Ha. apply in_map_iff in Ha as (d & <- & _). apply Hw0. }
        destruct Hj as [->|Hj]; [lra|]. specialize (IH Hj). specialize (Hw0 (e i b)). lra.
    - intros x Hx Hnz. destruct (w'nth x Hx) as (E1 & E2 & E3 & E4). set (p := nth x (cells count size) (0%nat,0%nat)) in *.
      rewrite E2. destruct (HI (fst p) E3) as [H1 _]. apply Iw; [apply He; auto|]. intros Z. apply Hnz. rewrite E1, Z. lra.
    - intros x x' Hx Hx' Hnz Hnz' E. destruct (w'nth x Hx) as (E1 & E2 & E3 & E4). destruct (w'nth x' Hx') as (E1' & E2' & E3' & E4').
      set (p := nth x (cells count size) (0%nat,0%nat)) in *. set (p' := nth x' (cells count size) (0%nat,0%nat)) in *.
      rewrite E2, E2' in E. rewrite E1 in Hnz. rewrite E1' in Hnz'.
      destruct (HI (fst p) E3) as [H1 _]. destruct (HI (fst p') E3') as [H1' _].
      assert (Ee : e (I (fst p)) (snd p) = e (I (fst p')) (snd p')).
      { apply Dw; auto; intros Z; [apply Hnz|apply Hnz']; rewrite Z; lra. }
      apply Einj in Ee; auto. destruct Ee as [Ei Ej].
      assert (Es : fst p = fst p').
      { eapply support_distinct; try eassumption; try lia.
        - apply Hun; auto. intros Z. apply Hnz. rewrite Z. lra.
        - apply Hun; auto. intros Z. apply Hnz'. rewrite Z. lra. }
      apply (proj1 (NoDup_nth _ (0%nat,0%nat)) (cells_nodup count size)); rewrite ?cells_length; auto.
      fold p p'. destruct p, p'; simpl in *; congruence.
    - apply INR_le. rewrite mult_INR. unfold nonzeros. unfold w'. rewrite filter_map_len, INR_filter.
      rewrite (Rsum_cells count size (fun s j => if (if Req_EM_T (nth (e (I s) j) w 0 * u s) 0 then false else true) then 1 else 0)).
      apply Rle_trans with (Rsum (map (fun s => (if isnz (nth s wt 0) then 1 else 0) * INR q) (seq 0 count))).
      + apply Rsum_le. intros s Hs. apply in_seq in Hs. destruct (HI s ltac:(lia)) as [H1 H2].
        unfold isnz at 1. destruct (Req_EM_T (nth s wt 0) 0) as [Z|Z].
        * rewrite Rmult_0_l. apply Req_le, Rsum_zero. intros y Hy. apply in_map_iff in Hy as (j & <- & _).
          destruct (Req_EM_T (nth (e (I s) j) w 0 * u s) 0) as [|N]; auto. exfalso. apply N. unfold u. rewrite Z. unfold Rdiv. ring.
        * rewrite Rmult_1_l.
          apply Rle_trans with (Rsum (map (fun j => if isnz (nth (e (I s) j) w 0) then 1 else 0) (seq 0 size))).
          -- apply Rsum_le. intros j _. unfold isnz. destruct (Req_EM_T (nth (e (I s) j) w 0) 0) as [Z'|Z'].
             ++ destruct (Req_EM_T (nth (e (I s) j) w 0 * u s) 0) as [|N]; [lra|]. exfalso. apply N. rewrite Z'. lra.
             ++ destruct (Req_EM_T _ _); lra.
          -- rewrite <- INR_filter. apply le_INR. apply (deal_bound w count size q (I s)); auto.
      + rewrite Rsum_map_scal_r. apply Rmult_le_compat_r; [apply pos_INR|].
        rewrite <- (INR_filter (fun s => isnz (nth s wt 0))). apply le_INR.
        replace (length (filter (fun s => isnz (nth s wt 0)) (seq 0 count))) with (nonzeros wt); [lia|].
        rewrite nonzeros_nzpos. unfold nzpos. now rewrite C1, C2.
  Qed.
End Level.
