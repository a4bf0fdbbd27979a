(** * Recombination: the modes differ only by zero-weight fill *)
From Coq Require Import List Arith ZArith Lia Reals Lra Bool.
From Verif Require Import Num RSum Jax JaxFacts DataModel DataProofs RecSpec RecModel DataMeanLemmas RecProofs3 RecProofs4.
Import ListNotations.
Local Open Scope nat_scope.

Lemma map_repeat' {A B} (f : A -> B) a n : map f (repeat a n) = repeat (f a) n.
Proof. induction n; cbn; congruence. Qed.

(** every mode returns the explicit result followed by copies of one entry *)
Lemma coresubset_nodes_fill {V} (O : FOps V) nodes w indices mode (aug : bool) I W :
  coresubset_nodes O nodes w indices MExplicit aug = Ok (I, W) -> mode <> MOther ->
  length I <= Nat.min (length nodes) (if aug then ncols nodes else S (ncols nodes)) ->
  exists i0 w0 q, coresubset_nodes O nodes w indices mode aug = Ok (I ++ repeat i0 q, W ++ repeat w0 q).
Proof.
  unfold coresubset_nodes. set (nz := map _ w). set (fill := argmin O w). cbn [bind]. intros E Hm H1. injection E as <- <-.
  rewrite map_length in H1.
  assert (G : forall size, length (positions nz 0) <= size -> exists i0 w0 q,
     @Ok (list nat * list V) (map (fun i => nth i indices 0) (flatnonzero nz size fill), map (fun i => nth i w (f0 O)) (flatnonzero nz size fill)) =
     Ok (map (fun i => nth i indices 0) (positions nz 0) ++ repeat i0 q, map (fun i => nth i w (f0 O)) (positions nz 0) ++ repeat w0 q)).
  { intros size Hs. exists (nth fill indices 0), (nth fill w (f0 O)), (size - length (positions nz 0)).
    unfold flatnonzero. rewrite firstn_all2 by auto. rewrite !map_app, !map_repeat'. reflexivity. }
  destruct mode; [| | |congruence].
  - apply G. lia.
  - apply G. lia.
  - exists 0, (f0 O), 0. cbn [repeat]. now rewrite !app_nil_r.
Qed.

Section Modes.
  Context {P Y : Type} (p0 : P) (y0 : Y).

  Lemma cs_init_inv O (idx : list Z) (w : list ER) (d : Data P Y ER) c :
    cs_init O p0 y0 (IData idx w) (AData d) = Ok c -> c = mkCS idx w d.
  Proof. unfold cs_init. cbn. match goal with |- context[if ?b then _ else _] => destruct b end; cbn; congruence. Qed.

  Lemma map_of_nat_inj (a b : list nat) : map Z.of_nat a = map Z.of_nat b -> a = b.
  Proof.
    revert b; induction a as [|x a IH]; intros [|y b] E; try discriminate; auto. injection E as E1 E2.
    apply Nat2Z.inj in E1. rewrite (IH b); congruence.
  Qed.
  Lemma map_fin_inj (a b : list R) : map (@Fin R) a = map Fin b -> a = b.
  Proof. revert b; induction a as [|x a IH]; intros [|y b] E; try discriminate; auto. injection E as E1 E2. rewrite (IH b); congruence. Qed.

  (** what two runs that differ only in their mode have in common *)
  Definition run_of (n m' : nat) (mk : rmode -> result (Coresubset P Y ER)) (d : Data P Y ER) : Prop :=
    exists nodes w indices (aug : bool), length nodes = n /\ (if aug then ncols nodes else S (ncols nodes)) = m' /\
      forall mode, mk mode = (do r <- coresubset_nodes EROps nodes w indices mode aug;
        cs_init EROps p0 y0 (IData (map Z.of_nat (fst r)) (snd r)) (AData d)).

  Lemma modes_fill mk d n m' mode idxE wtE idx wt :
    run_of n m' mk d -> mode <> MOther ->
    mk MExplicit = Ok (mkCS (map Z.of_nat idxE) (map Fin wtE) d) ->
    mk mode = Ok (mkCS (map Z.of_nat idx) (map Fin wt) d) ->
    length idxE = nonzeros wtE -> (nonzeros wtE <= Nat.min n m')%nat ->
    length wtE = length idxE ->
    Rsum wtE = 1%R -> Rsum wt = 1%R ->
    exists i0 q, idx = idxE ++ repeat i0 q /\ wt = wtE ++ repeat 0%R q.
  Proof.
    intros (nodes & w & ix & aug & Hn & Hm' & Hr) Hm E1 E2 L1 Hle L3 S1 S2.
    rewrite Hr in E1, E2.
    destruct (coresubset_nodes EROps nodes w ix MExplicit aug) as [[I W]|] eqn:EE; [|discriminate]. cbn [bind fst snd] in E1.
    apply cs_init_inv in E1. injection E1 as EI EW.
    apply map_of_nat_inj in EI. subst I W.
    destruct (coresubset_nodes_fill EROps nodes w ix mode aug _ _ EE Hm) as (i0 & w0 & q & EM).
    { rewrite Hm'. lia. }
    rewrite EM in E2. cbn [bind fst snd] in E2. apply cs_init_inv in E2. injection E2 as EI EW.
    apply map_of_nat_inj in EI. exists i0, q. split; auto.
    assert (exists v, repeat w0 q = map Fin (repeat v q)) as (v & Ev).
    { destruct q as [|q]; [exists 0%R; reflexivity|].
      assert (In w0 (map Fin wt)) as Hin by (rewrite EW; apply in_or_app; right; now left).
      apply in_map_iff in Hin as (v & <- & _). exists v. now rewrite map_Fin_repeat. }
    rewrite Ev, <- map_app in EW. apply map_fin_inj in EW. rewrite EW.
    rewrite EW, Rsum_app, S1, Rsum_repeat in S2. f_equal.
    destruct q as [|q]; [reflexivity|]. assert (v = 0%R) as ->; auto.
    assert (0 < INR (S q))%R by (apply lt_0_INR; lia). assert (INR (S q) * v = 0)%R as Z by lra. apply Rmult_integral in Z. destruct Z; lra.
  Qed.
End Modes.

Section Runs.
  Context {P Y : Type} (p0 : P) (y0 : Y).
  Variables (phi : P -> list ER) (f : P -> list R) (m : nat).
  Variable null : list (list ER) -> list (list ER) * nat.
  Variables (xs : list P) (ws : list R).
  Hypothesis Hphi : forall x, In x xs -> phi x = map Fin (f x) /\ length (f x) = m.
  Hypothesis Hlen : length ws = length xs.
  Hypothesis Hpos : Forall (fun x => (0 <= x)%R) ws.
  Hypothesis Hsum : (0 < Rsum ws)%R.

  Lemma xs_pos : 0 < length xs.
  Proof. destruct xs; [|simpl; lia]. destruct ws; [simpl in Hsum; lra|discriminate]. Qed.

  Lemma carath_run : run_of p0 y0 (length xs) (S m)
    (fun mode => carath_reduce EROps p0 y0 phi null mode (mkData xs (map Fin ws) None)) (mkData xs (map Fin ws) None).
  Proof.
    pose proof xs_pos as Hn.
    set (w := map (fun a => (a / Rsum ws)%R) ws).
    assert (Lw : length w = length xs) by (unfold w; now rewrite map_length, Hlen).
    assert (Sw : Rsum w = 1%R) by (unfold w; apply Rsum_normalized; lra).
    assert (Pw : Forall (fun x => (0 <= x)%R) w).
    { apply Forall_forall. intros x Hx. apply in_map_iff in Hx as (y & <- & Hy). rewrite Forall_forall in Hpos.
      apply Rmult_le_pos; auto. apply Rlt_le, Rinv_0_lt_compat; auto. }
    set (nodes := map (fun x => 1%R :: f x) xs).
    assert (Epf : push_forward EROps phi true xs = map (map Fin) nodes).
    { unfold push_forward, nodes. rewrite !map_map. apply map_ext_in. intros x Hx. destruct (Hphi x Hx) as [-> _]. reflexivity. }
    destruct (co_linearize_fin nodes w) as (sw & ci & Eco & Lci & Lsw & Psw & Hci & Hg); auto.
    { unfold nodes. rewrite map_length. auto. } { lra. }
    set (A := map (fun i => nth i nodes []) ci) in *.
    destruct (null (map (map Fin) A)) as [basis rank] eqn:EN.
    exists (map (map Fin) A), (eliminate_all EROps (map Fin sw) basis rank), ci, true. split; [|split].
    - unfold A. rewrite !map_length. lia.
    - unfold A. destruct ci as [|i ci']; [simpl in Lci; lia|]. unfold ncols. cbn [map hd]. rewrite map_length.
      inversion Hci; subst. unfold nodes. rewrite (GreedyProofs.nth_map_lt _ _ _ p0) by lia. cbn [length]. f_equal.
      apply Hphi, nth_In. lia.
    - intros mode. unfold carath_reduce, normalize, unpack2. cbn [d_x d_w d_y bind].
      rewrite normalize_any_fin by lra. fold w. rewrite Epf, Eco, EN. reflexivity.
  Qed.

  Variables (clog : nat -> nat -> nat -> result Z) (factor : nat).
  Hypothesis Htree : exists c, tree_reduce EROps p0 y0 phi null clog factor MExplicit (mkData xs (map Fin ws) None) = Ok c.
  Lemma tree_run : run_of p0 y0 (length xs) (S m)
    (fun mode => tree_reduce EROps p0 y0 phi null clog factor mode (mkData xs (map Fin ws) None)) (mkData xs (map Fin ws) None).
  Proof.
    pose proof xs_pos as Hn. destruct Htree as (c & Hc). unfold tree_reduce, normalize, unpack2 in Hc.
    cbn [d_x d_w d_y bind] in Hc. rewrite normalize_any_fin in Hc by lra.
    set (pf := push_forward EROps phi false xs) in *.
    destruct (prepare_tree clog (length pf) (S (ncols pf)) factor) as [[[padding count] depth]|] eqn:EP; [|discriminate].
    cbn [bind] in Hc. destruct (padding <? 0)%Z eqn:EZ; [discriminate|].
    destruct (foriM depth _ _) as [[w ix]|] eqn:EF; [|discriminate].
    exists pf, w, ix, false. split; [|split].
    - unfold pf, push_forward. apply map_length.
    - f_equal. unfold pf, push_forward, ncols. destruct xs as [|x l]; [simpl in Hn; lia|]. cbn [map hd].
      destruct (Hphi x) as [-> E]; [now left|]. now rewrite map_length.
    - intros mode. unfold tree_reduce, normalize, unpack2. cbn [d_x d_w d_y bind]. rewrite normalize_any_fin by lra.
      fold pf. rewrite EP. cbn [bind]. rewrite EZ, EF. reflexivity.
  Qed.
End Runs.
