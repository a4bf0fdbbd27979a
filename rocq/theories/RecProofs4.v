(** * Caratheodory recombination: the whole reduction *)
From Coq Require Import List Arith ZArith Lia Reals Lra Permutation.
From Verif Require Import Num RSum Jax JaxFacts ArgFacts DataModel DataProofs GreedyProofs GreedyProofs2
  MetricProofs2 RecSpec RecModel RecProofs RecProofs2 RecProofs3.
Import ListNotations.
Local Open Scope R_scope.

Lemma argmax_pos w : Forall (fun x => 0 <= x) w -> 0 < Rsum w ->
  (argmax EROps (map Fin w) < length w)%nat /\ 0 < nth (argmax EROps (map Fin w)) w 0.
Proof.
  intros Hp Hs. destruct (Rsum_pos_ex w Hs) as (x & Hx & Px). apply (In_nth _ _ 0) in Hx as (j & Hj & Ej).
  destruct (argmax_spec ROps ROps_laws (map Fin w)) as [R1 [R2 _]].
  - destruct w; [simpl in Hj; lia|discriminate].
  - apply Forall_forall. intros y Hy. apply in_map_iff in Hy as (z & <- & _). discriminate.
  - change (argmax (extOps ROps)) with (argmax EROps) in *. rewrite map_length in *. split; auto.
    specialize (R2 j Hj). rewrite !(nth_map_lt Fin w _ 0) in R2 by auto. apply (proj1 (Rltb_false _ _)) in R2. lra.
Qed.

Definition cozero (x : R) : bool := if Rlt_dec 0 x then false else true.
Lemma co_linearize_fin (nodes : list (list R)) w :
  length nodes = length w -> Forall (fun x => 0 <= x) w -> 0 < Rsum w ->
  exists sw ci,
    co_linearize EROps (map (map Fin) nodes) (map Fin w)
      = (map (map Fin) (map (fun i => nth i nodes []) ci), map Fin sw, ci) /\
    length ci = length w /\ length sw = length w /\ Forall (fun x => 0 <= x) sw /\
    Forall (fun i => (i < length w)%nat /\ 0 < nth i w 0) ci /\
    forall g, Rsum (map (fun i => nth i sw 0 * g (nth i ci 0%nat)) (seq 0 (length w)))
            = Rsum (map (fun i => nth i w 0 * g i) (seq 0 (length w))).
Proof.
  intros HL Hp Hs. destruct (argmax_pos w Hp Hs) as [M1 M2]. set (mx := argmax EROps (map Fin w)) in *.
  set (n := length w). set (z := length (filter cozero w)).
  set (co := fun i => if Rlt_dec 0 (nth i w 0) then i else mx).
  set (w' := upd mx (nth mx w 0 / IZR (Z.of_nat z + 1)) w).
  assert (Hz : 0 < IZR (Z.of_nat z + 1)) by (apply IZR_lt; lia).
  assert (Eci : co_indices EROps (map Fin w) = map co (seq 0 n)).
  { unfold co_indices. fold mx. rewrite map_length. fold n. apply (list_ext _ _ 0%nat).
    - rewrite !map_length, combine_length, seq_length, map_length. fold n. lia.
    - intros i Hi. rewrite map_length, combine_length, seq_length, map_length in Hi. fold n in Hi.
      rewrite (nth_map_lt _ _ _ (0%nat, Fin 0)) by (rewrite combine_length, seq_length, map_length; fold n; lia).
      rewrite combine_nth by (now rewrite seq_length, map_length). cbn [fst snd].
      rewrite nth_map_fin, fgt0_fin, seq_nth by lia. rewrite nth_map_seq by lia. unfold co. cbn [Nat.add].
      destruct (Rlt_dec _ _); reflexivity. }
  assert (Enz : mask_count (map (fun v => negb (fgt0 EROps v)) (map Fin w)) = z).
  { unfold mask_count, z. rewrite map_map, filter_map_len. f_equal. apply filter_ext. intros x. rewrite fgt0_fin.
    unfold cozero. destruct (Rlt_dec 0 x); reflexivity. }
  exists (map (fun i => nth i w' 0) (map co (seq 0 n))), (map co (seq 0 n)).
  assert (Hco : forall i, (i < n)%nat -> (co i < n)%nat /\ 0 < nth (co i) w 0).
  { intros i Hi. unfold co. destruct (Rlt_dec 0 (nth i w 0)); auto. }
  assert (Hw' : forall i, (i < n)%nat -> nth i w' 0 = if Nat.eqb mx i then nth mx w 0 / IZR (Z.of_nat z + 1) else nth i w 0).
  { intros i Hi. unfold w'. destruct (Nat.eqb_spec mx i) as [<-|E].
    - now apply nth_upd_eq.
    - apply nth_upd_neq; congruence. }
  split; [|split; [|split; [|split; [|split]]]].
  - unfold co_linearize. fold mx. rewrite Eci, Enz. change (f0 EROps) with (Fin 0 : ER). rewrite nth_map_fin.
    change (fofZ EROps (Z.of_nat z + 1)) with (Fin (IZR (Z.of_nat z + 1)) : ER). rewrite fdiv_fin by lra.
    f_equal. f_equal.
    + rewrite (map_map (fun i => nth i nodes [])). apply map_ext. intros i. exact (map_nth (map Fin) nodes [] i).
    + rewrite (map_map (fun i => nth i w' 0)). apply map_ext. intros i. unfold w'. rewrite <- map_upd. apply nth_map_fin.
  - now rewrite map_length, seq_length.
  - now rewrite !map_length, seq_length.
  - apply Forall_forall. intros x Hx. apply in_map_iff in Hx as (i & <- & Hi). apply in_map_iff in Hi as (j & <- & Hj).
    apply in_seq in Hj. destruct (Hco j ltac:(lia)) as [C1 C2]. rewrite Hw' by auto.
    destruct (Nat.eqb _ _); [|lra]. apply Rmult_le_pos; [lra|]. apply Rlt_le, Rinv_0_lt_compat. auto.
  - apply Forall_forall. intros i Hi. apply in_map_iff in Hi as (j & <- & Hj). apply in_seq in Hj. apply Hco. lia.
  - intros g. fold n.
    set (q := nth mx w 0 / IZR (Z.of_nat z + 1)).
    rewrite (Rsum_map_ext _ (fun i => (nth i w 0 * g i + (if Nat.eqb mx i then (q - nth mx w 0) * g mx else 0))
                               + (if cozero (nth i w 0) then 1 else 0) * (q * g mx))).
    + rewrite !Rsum_map_add, Rsum_map_scal_r. rewrite (Rsum_delta (fun _ => (q - nth mx w 0) * g mx)) by auto.
      replace (Rsum (map (fun i => if cozero (nth i w 0) then 1 else 0) (seq 0 n))) with (INR z).
      * unfold q. rewrite INR_IZR_INZ, plus_IZR in *. field. simpl in Hz. lra.
      * unfold z. rewrite <- (map_nth_seq w 0) at 1. fold n. clear. induction (seq 0 n) as [|a l IH]; [reflexivity|].
        cbn [map filter Rsum]. destruct (cozero (nth a w 0)); [|rewrite IH; lra]. cbn [length]. rewrite S_INR, IH. lra.
    + intros i Hi. apply in_seq in Hi. rewrite (nth_map_lt _ _ _ 0%nat) by (rewrite map_length, seq_length; lia).
      rewrite !nth_map_seq by lia. destruct (Hco i ltac:(lia)) as [C1 C2]. rewrite Hw' by auto. fold q.
      unfold co, cozero. rewrite Forall_forall in Hp. assert (0 <= nth i w 0) by (apply Hp, nth_In; fold n; lia).
      destruct (Rlt_dec 0 (nth i w 0)).
      * destruct (Nat.eqb_spec mx i) as [<-|E]; ring.
      * rewrite Nat.eqb_refl. destruct (Nat.eqb_spec mx i) as [<-|E]; [lra|]. replace (nth i w 0) with 0 by lra. ring.
Qed.

(** the number of non-zero weights is at most the number of columns *)
Lemma support_count A k w :
  length w = length A ->
  (forall v, length v = length A -> null_vec A k v ->
     (forall j, (j < length A)%nat -> nth j w 0 = 0 -> nth j v 0 = 0) ->
     forall j, (j < length A)%nat -> nth j v 0 = 0) ->
  (length (nzpos w) <= k)%nat.
Proof.
  intros HL H. destruct (Nat.le_gt_cases (length (nzpos w)) k) as [|Hgt]; auto. exfalso.
  set (p := nzpos w) in *. set (A' := map (fun i => nth i A []) p).
  assert (LA' : length A' = length p) by (unfold A'; now rewrite map_length).
  destruct (dependent A' k) as (v & V1 & V2 & (i & Hi & Ni)); [lia|].
  assert (Hp : Forall (fun a => (a < length A)%nat) p).
  { apply Forall_forall. intros a Ha. apply nzpos_in in Ha. lia. }
  rewrite LA' in *.
  assert (Hat : nth (nth i p 0%nat) (spread (length A) p v) 0 = nth i v 0).
  { apply spread_at; auto.
    - rewrite Forall_forall in Hp. apply Hp, nth_In, Hi.
    - intros j' Hj' E. apply (proj1 (NoDup_nth _ 0%nat) (nzpos_nodup w)); auto. }
  apply Ni. rewrite <- Hat. apply H.
  - apply spread_length.
  - intros c Hc. rewrite (spread_sum (length A) p v (fun i => entry A i c)) by auto.
    specialize (V2 c Hc). rewrite LA' in V2. rewrite wsum_at_seq by auto. etransitivity; [|exact V2].
    apply Rsum_map_ext. intros j Hj. apply in_seq in Hj. f_equal. unfold entry, A'.
    now rewrite (nth_map_lt _ _ _ 0%nat) by lia.
  - intros j Hj Hz. apply spread_zero; auto. intros j' Hj' E. exfalso.
    assert (In (nth j' p 0%nat) p) as Hin by (now apply nth_In). apply nzpos_in in Hin. rewrite E in Hin. tauto.
  - rewrite Forall_forall in Hp. apply Hp, nth_In, Hi.
Qed.

Lemma Forall_nth' {A} (Q : A -> Prop) l d i : Forall Q l -> (i < length l)%nat -> Q (nth i l d).
Proof. intros H Hi. rewrite Forall_forall in H. apply H, nth_In, Hi. Qed.

Section Carath.
  Context {P Y : Type} (p0 : P) (y0 : Y).
  Variables (phi : P -> list ER) (f : P -> list R) (m : nat).
  Variable null : list (list ER) -> list (list ER) * nat.
  Variables (xs : list P) (ws : list R).
  Let n := length xs.
  Let g i c := nth c (f (nth i xs p0)) 0.
  Hypothesis Hphi : forall x, In x xs -> phi x = map Fin (f x) /\ length (f x) = m.
  Hypothesis Hlen : length ws = length xs.
  Hypothesis Hpos : Forall (fun x => 0 <= x) ws.
  Hypothesis Hsum : 0 < Rsum ws.
  Hypothesis Hnull : forall A, length A = n -> matrix (S m) A ->
    (forall a, In a A -> exists x, In x xs /\ a = 1 :: f x) -> null_basis_at null (S m) A.

  Lemma carath_outcome mode : mode <> MOther ->
    exists idx wt,
      carath_reduce EROps p0 y0 phi null mode (mkData xs (map Fin ws) None)
        = Ok (mkCS (map Z.of_nat idx) (map Fin wt) (mkData xs (map Fin ws) None)) /\
      length wt = length idx /\
      length idx = mode_size mode n (S m) (nonzeros wt) /\
      Forall (fun i => (i < n)%nat /\ 0 < nth i ws 0) idx /\
      Forall (fun a => 0 <= a) wt /\
      Rsum wt = 1 /\
      (forall c, (c < m)%nat ->
         wsum_at (fun i => g i c) idx wt = wsum_at (fun i => g i c) (seq 0 n) ws / Rsum ws) /\
      support_independent m g idx wt /\
      (nonzeros wt <= Nat.min n (S m))%nat.
  Proof.
    intros Hm. unfold carath_reduce, normalize, unpack2. cbn [d_x d_w d_y bind].
    rewrite normalize_any_fin by lra. set (w := map (fun a => a / Rsum ws) ws).
    assert (Lw : length w = n) by (unfold w; now rewrite map_length, Hlen).
    assert (Ww : forall i, nth i w 0 = nth i ws 0 / Rsum ws).
    { intros i. unfold w. replace 0 with (0 / Rsum ws) at 1 by (unfold Rdiv; ring). now rewrite (map_nth (fun a => a / Rsum ws)). }
    assert (Sw : Rsum w = 1) by (unfold w; apply Rsum_normalized; lra).
    assert (Pw : Forall (fun x => 0 <= x) w).
    { apply Forall_forall. intros x Hx. apply in_map_iff in Hx as (y & <- & Hy). rewrite Forall_forall in Hpos.
      apply Rmult_le_pos; auto. apply Rlt_le, Rinv_0_lt_compat; auto. }
    set (nodes := map (fun x => 1 :: f x) xs).
    assert (Epf : push_forward EROps phi true xs = map (map Fin) nodes).
    { unfold push_forward, nodes. rewrite !map_map. apply map_ext_in. intros x Hx. destruct (Hphi x Hx) as [-> _]. reflexivity. }
    rewrite Epf.
    destruct (co_linearize_fin nodes w) as (sw & ci & Eco & Lci & Lsw & Psw & Hci & Hg); auto.
    { unfold nodes. rewrite map_length. auto. } { lra. }
    rewrite Eco. set (A := map (fun i => nth i nodes []) ci).
    rewrite Lw in *.
    assert (LA : length A = n) by (unfold A; rewrite map_length; auto).
    assert (nodes_nth : forall i, (i < n)%nat -> nth i nodes [] = 1 :: f (nth i xs p0)).
    { intros i Hi. unfold nodes. now rewrite (nth_map_lt _ _ _ p0). }
    assert (Anth : forall i, (i < n)%nat -> nth i A [] = 1 :: f (nth (nth i ci 0%nat) xs p0)).
    { intros i Hi. unfold A. rewrite (nth_map_lt _ _ _ 0%nat) by lia. apply nodes_nth.
      apply (Forall_nth' _ ci 0%nat i) in Hci; [|lia]. apply Hci. }
    assert (AIn : forall a, In a A -> exists x, In x xs /\ a = 1 :: f x).
    { intros a Ha. apply (In_nth _ _ []) in Ha as (i & Hi & <-). rewrite LA in Hi. rewrite Anth by auto.
      eexists. split; [|reflexivity]. apply nth_In. apply (Forall_nth' _ ci 0%nat i) in Hci; [|lia]. apply Hci. }
    assert (AM : matrix (S m) A).
    { apply Forall_forall. intros a Ha. destruct (AIn a Ha) as (x & Hx & ->). simpl. f_equal. now apply Hphi. }
    destruct (Hnull A LA AM AIn) as (B & r & EB & HB). rewrite EB.
    assert (A1 : forall i, (i < length A)%nat -> entry A i 0 = 1).
    { intros i Hi. unfold entry. rewrite Anth by lia. reflexivity. }
    assert (AS : forall i c, (i < n)%nat -> entry A i (S c) = g (nth i ci 0%nat) c).
    { intros i c Hi. unfold entry. rewrite Anth by lia. reflexivity. }
    destruct (elim_loop A (S m) sw B r) as (w' & Ew & Lw' & Pw' & Cw & _ & Hind); auto; try lia.
    rewrite Ew.
    assert (Hcount : (length (nzpos w') <= S m)%nat) by (apply (support_count A (S m) w'); auto).
    assert (Hcount2 : (length (nzpos w') <= n)%nat).
    { unfold nzpos. etransitivity; [apply filter_len_le|]. rewrite seq_length. lia. }
    assert (Hn0 : (0 < n)%nat).
    { destruct xs; [|simpl in n; unfold n; lia]. destruct ws; [simpl in Hsum; lra|discriminate]. }
    assert (Enc : ncols (map (map Fin) A) = S m).
    { unfold ncols. destruct A as [|a A'] eqn:EA; [simpl in LA; lia|]. cbn [map hd]. rewrite map_length.
      inversion AM; auto. }
    destruct (coresubset_nodes_ok (map (map Fin) A) w' ci mode true) as (sel & Hsel & Lsel & Esel); auto.
    { rewrite map_length. lia. } { rewrite map_length, Enc. lia. }
    rewrite Esel. cbn [bind fst snd].
    rewrite map_length, Enc, LA in Lsel.
    set (idx := map (fun i => nth i ci 0%nat) sel). set (wt := map (fun i => nth i w' 0) sel).
    exists idx, wt.
    assert (Enz : nonzeros wt = length (nzpos w')).
    { unfold wt. rewrite selection_nonzeros by auto. apply nonzeros_nzpos. }
    assert (Lidx : length idx = length sel) by (unfold idx; now rewrite map_length).
    assert (Lwt : length wt = length sel) by (unfold wt; now rewrite map_length).
    assert (Hsl := selection_lt _ _ Hsel). rewrite Lw', LA in Hsl.
    assert (Hidx : Forall (fun i => (i < n)%nat /\ 0 < nth i ws 0) idx).
    { apply Forall_forall. intros i Hi. apply in_map_iff in Hi as (j & <- & Hj). rewrite Forall_forall in Hsl.
      specialize (Hsl j Hj). apply (Forall_nth' _ ci 0%nat j) in Hci; [|lia]. destruct Hci as [C1 C2]. split; auto.
      rewrite Ww in C2. destruct (Rlt_dec 0 (nth (nth j ci 0%nat) ws 0)) as [|N]; auto. exfalso.
      assert (nth (nth j ci 0%nat) ws 0 / Rsum ws <= 0); [|lra]. unfold Rdiv.
      pose proof (Rinv_0_lt_compat _ Hsum). nra. }
    split; [|split; [congruence|split; [|split; [auto|split; [|split; [|split; [|split]]]]]]].
    - unfold cs_init, points, d_getitem, d_len. cbn [c_idx c_pre c_w d_x d_w]. rewrite gather_length, map_length.
      rewrite Lidx. fold n.
      assert (Hle : (length sel <= n)%nat).
      { rewrite Lsel. unfold mode_size. destruct mode; lia. }
      destruct (Nat.ltb_spec n (length sel)); [lia|]. reflexivity.
    - rewrite Lidx, Lsel, Enz. reflexivity.
    - apply Forall_forall. intros a Ha. apply in_map_iff in Ha as (i & <- & Hi). rewrite Forall_forall in Hsl.
      apply (Forall_nth' (fun x => 0 <= x)); auto. rewrite Lw', LA. auto.
    - rewrite <- (wsum_at_one idx) by lia. unfold idx. rewrite wsum_at_map. unfold wt.
      rewrite (selection_sum w' sel (fun _ => 1)) by auto. rewrite Lw'.
      transitivity (column A 0 w').
      { unfold column. apply Rsum_map_ext. intros i Hi. apply in_seq in Hi. rewrite A1 by lia. reflexivity. }
      rewrite Cw by lia. unfold column. rewrite LA.
      rewrite (Rsum_map_ext _ (fun i => nth i sw 0 * (fun _ => 1) (nth i ci 0%nat))).
      2:{ intros i Hi. apply in_seq in Hi. rewrite A1 by lia. reflexivity. }
      etransitivity; [exact (Hg (fun _ => 1))|]. etransitivity; [|exact Sw]. transitivity (Rsum (map (fun i => nth i w 0) (seq 0 n))); [|rewrite <- Lw; now rewrite map_nth_seq]. apply Rsum_map_ext. intros; lra.
    - intros c Hc. unfold idx. rewrite wsum_at_map. unfold wt.
      rewrite (selection_sum w' sel (fun i => g (nth i ci 0%nat) c)) by auto. rewrite Lw'.
      transitivity (column A (S c) w').
      { unfold column. apply Rsum_map_ext. intros i Hi. apply in_seq in Hi. rewrite AS by lia. reflexivity. }
      rewrite Cw by lia. unfold column. rewrite LA.
      rewrite (Rsum_map_ext _ (fun i => nth i sw 0 * (fun i => g i c) (nth i ci 0%nat))).
      2:{ intros i Hi. apply in_seq in Hi. rewrite AS by lia. reflexivity. }
      etransitivity; [exact (Hg (fun i => g i c))|]. unfold n. rewrite <- Hlen, wsum_at_iota. rewrite <- Rsum_map_div. apply Rsum_map_ext.
      intros i _. rewrite Ww. unfold Rdiv. ring.
    - intros co Lco Hz H0 Hc j Hj. rewrite Lidx in *.
      set (v := spread n sel co).
      assert (Hv : forall i, (i < n)%nat -> nth i v 0 = 0).
      { rewrite LA in Hind. apply Hind.
        - apply spread_length.
        - intros c Hc'. rewrite LA. unfold v. rewrite (spread_sum n sel co (fun i => entry A i c)) by auto.
          destruct c as [|c].
          + rewrite (wsum_at_ext _ (fun _ => 1)); [rewrite wsum_at_one; auto|].
            intros i Hi. rewrite Forall_forall in Hsl. apply A1. rewrite LA. auto.
          + rewrite (wsum_at_ext _ (fun i => g (nth i ci 0%nat) c)).
            * rewrite <- (Hc c) by lia. unfold idx. now rewrite wsum_at_map.
            * intros i Hi. rewrite Forall_forall in Hsl. apply AS. auto.
        - intros i Hi Hwz. apply spread_zero; auto. intros j' Hj' E. apply Hz; auto.
          unfold wt. rewrite (nth_map_lt _ _ _ 0%nat) by auto. now rewrite E. }
      destruct (Req_EM_T (nth j wt 0) 0) as [Ez|Nz]; [apply Hz; auto|].
      assert (Nz' : nth (nth j sel 0%nat) w' 0 <> 0).
      { unfold wt in Nz. rewrite (nth_map_lt _ _ _ 0%nat) in Nz by auto. exact Nz. }
      rewrite <- (spread_at n sel co j); auto.
      + apply Hv. now apply (Forall_nth' _ sel 0%nat j) in Hsl.
      + now apply (Forall_nth' _ sel 0%nat j) in Hsl.
      + intros j' Hj' E. eapply selection_once; eauto.
    - lia.
  Qed.
End Carath.

(** with an independent support no point carries two non-zero weights *)
Lemma support_distinct m g idx wt j j' :
  support_independent m g idx wt -> length wt = length idx -> (j < length idx)%nat -> (j' < length idx)%nat ->
  nth j wt 0 <> 0 -> nth j' wt 0 <> 0 -> nth j idx 0%nat = nth j' idx 0%nat -> j = j'.
Proof.
  intros HS HL Hj Hj' N N' E. destruct (Nat.eq_dec j j') as [|Hne]; auto. exfalso.
  set (co := map (fun i => (if Nat.eqb j i then 1 else 0) + (if Nat.eqb j' i then -1 else 0)) (seq 0 (length idx))).
  assert (Hco : forall i, (i < length idx)%nat -> nth i co 0 = (if Nat.eqb j i then 1 else 0) + (if Nat.eqb j' i then -1 else 0)).
  { intros i Hi. unfold co. now rewrite nth_map_seq. }
  assert (Lco : length co = length idx) by (unfold co; now rewrite map_length, seq_length).
  assert (Hall : forall h : nat -> R, wsum_at h idx co = h (nth j idx 0%nat) - h (nth j' idx 0%nat)).
  { intros h. rewrite wsum_at_seq by auto.
    rewrite (Rsum_map_ext _ (fun i => (if Nat.eqb j i then h (nth i idx 0%nat) else 0) - (if Nat.eqb j' i then h (nth i idx 0%nat) else 0))).
    - rewrite Rsum_map_sub, !Rsum_delta by auto. reflexivity.
    - intros i Hi. apply in_seq in Hi. rewrite Hco by lia. destruct (Nat.eqb j i), (Nat.eqb j' i); ring. }
  assert (Hz : nth j co 0 = 0).
  { apply HS; auto.
    - intros i Hi Hw. rewrite Hco by auto. destruct (Nat.eqb_spec j i); [subst; contradiction|].
      destruct (Nat.eqb_spec j' i); [subst; contradiction|]. lra.
    - rewrite <- (wsum_at_one idx) by auto. rewrite Hall. lra.
    - intros c Hc. rewrite Hall, E. lra. }
  rewrite Hco in Hz by auto. rewrite Nat.eqb_refl in Hz. destruct (Nat.eqb_spec j' j); [congruence|]. lra.
Qed.
