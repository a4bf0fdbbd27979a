(** * Recombination in floating point: C86

    Caratheodory recombination run in IEEE arithmetic, for every binary format with rounding
    to nearest even and every order of summation.  The singular value decomposition is an
    external routine: nothing is assumed about its values, only the shape of its result. *)
From Coq Require Import List ZArith Bool Reals Lia Lra.
From Coq Require Import Floats.SpecFloat.
From Flocq Require Import Core.Core IEEE754.BinarySingleNaN.
From Verif Require Import Num Jax RSum JaxFacts SumSpec Float DataModel RecModel RecSpec RecProofs9 BenchSized FloatIdxSpec FloatErrSpec FloatRate3 FloatStein PropFloatNorm FloatRec.
Import ListNotations.
Open Scope nat_scope.

(** [svd] returns [(q.T, s)] of the shapes of a full decomposition: an n x n matrix and
    min(n, m) singular values *)
Definition svd_shape {V} (svd : list (list V) -> list (list V) * list V) : Prop :=
  forall A, length (fst (svd A)) = length A /\ Forall (fun q => length q = length A) (fst (svd A)) /\
    length (snd (svd A)) = Nat.min (length A) (length (hd [] A)).

Section Aux.
  Context (prec emax : Z) {Hprec : Prec_gt_0 prec} {Hmax : Prec_lt_emax prec emax} {Sm : SumOrder prec emax}.
  Notation flt := (binary_float prec emax).
  Notation O := (FOpsIEEE prec emax).
  Notation zero := (B754_zero false : flt).
  Lemma allfin_id l : Forall (fun v : flt => is_finite v = true) l -> forall z, map (fun v : flt => if fisnan O v then z else v) l = l.
  Proof.
    intros F z. rewrite <- (map_id l) at 2. apply map_ext_in. intros v Hv. rewrite Forall_forall in F. specialize (F v Hv). destruct v; try discriminate; reflexivity.
  Qed.
  Lemma notallnan l : l <> [] -> Forall (fun v : flt => is_finite v = true) l -> forallb (fisnan O) l = false.
  Proof. intros H F. destruct F as [|v l F _]; [congruence|]. destruct v; try discriminate; reflexivity. Qed.
  Lemma argmax_best (l : list flt) : l <> [] -> Forall (fun v => is_finite v = true) l ->
    argmax O l < length l /\ forall w, In w l -> (B2R w <= B2R (nth (argmax O l) l B754_nan))%R.
  Proof.
    intros NE F. destruct (nanargmax_best prec emax l) as (r & R1 & R2 & _ & R4).
    - intros v Hv. right. right. rewrite Forall_forall in F. auto.
    - destruct F as [|v l F _]; [congruence|]. apply Exists_cons_hd. exact F.
    - unfold nanargmax in R1. rewrite notallnan, allfin_id in R1 by auto. apply Nat2Z.inj in R1. rewrite R1. split; auto.
      intros w Hw. apply R4; auto. rewrite Forall_forall in F. auto.
  Qed.
  Lemma argmin_least (l : list flt) : l <> [] -> Forall (fun v => is_finite v = true) l ->
    argmin O l < length l /\ forall w, In w l -> (B2R (nth (argmin O l) l B754_nan) <= B2R w)%R.
  Proof.
    intros NE F. destruct (nanargmin_least prec emax l) as (r & R1 & R2 & _ & R4).
    - intros v Hv. right. right. rewrite Forall_forall in F. auto.
    - destruct F as [|v l F _]; [congruence|]. apply Exists_cons_hd. exact F.
    - unfold nanargmin in R1. rewrite notallnan, allfin_id in R1 by auto. apply Nat2Z.inj in R1. rewrite R1. split; auto.
      intros w Hw. apply R4; auto. rewrite Forall_forall in F. auto.
  Qed.
  Lemma feqb_zero (v : flt) : is_finite v = true -> feqb O v (f0 O) = negb (Rlt_bool (B2R v) 0 || Rlt_bool 0 (B2R v)).
  Proof.
    intros F. unfold feqb, fleb. cbn [fltb f0 fisnan FOpsIEEE]. rewrite !(Bltb_correct prec emax) by auto. change (B2R (B754_zero false)) with 0%R.
    destruct (is_nan v) eqn:E; [destruct v; discriminate|]. cbn. destruct (Rlt_bool (B2R v) 0), (Rlt_bool 0 (B2R v)); reflexivity.
  Qed.
End Aux.

Section Main.
  Context (prec emax : Z) {Hprec : Prec_gt_0 prec} {Hmax : Prec_lt_emax prec emax} {Sm : SumOrder prec emax}.
  Notation flt := (binary_float prec emax).
  Notation O := (FOpsIEEE prec emax).
  Notation zero := (B754_zero false : flt).
  Context {P Y : Type} (p0 : P) (y0 : Y) (phi : P -> list flt) (m : nat) (svd : list (list flt) -> list (list flt) * list flt)
    (eps : flt) (rcond : option flt) (d : Data P Y flt).
  Hypothesis UN : d_y d = None.
  Hypothesis LW : length (d_w d) = length (d_x d).
  Hypothesis W : Forall weight_ok (d_w d).
  Hypothesis T : (0 < total (d_w d) <= bpow radix2 (emax - 2))%R.
  Hypothesis N : (8 * (Z.of_nat (d_len d) + 1) <= 2 ^ prec)%Z.
  Hypothesis PH : forall x, In x (d_x d) -> length (phi x) = m.
  Hypothesis SV : svd_shape svd.
  Notation n := (d_len d).
  Let solve mode := carath_reduce O p0 y0 phi (resolve_null_basis O svd eps rcond) mode d.
  Let nw := normalize_w O true (d_w d).
  Let nodes := push_forward O phi true (d_x d).
  Let ix := co_indices O nw.
  Definition good (i : nat) : Prop := i < n /\ (0 < B2R (nth i (d_w d) B754_nan))%R.

  Lemma n_pos : 0 < n.
  Proof. clear - T LW. unfold d_len. destruct (d_x d); cbn in *; [|lia]. destruct (d_w d); [|discriminate]. unfold total in T. cbn in T. lra. Qed.
  Lemma dist : distribution_of (d_w d) nw.
  Proof.
    destruct (C84_normalize prec emax Hprec Hmax Sm (d_w d) W T) with (P := unit) (Y := unit) (preserve_zeros := true) (x := @nil unit) (s := @None (list unit)) as (w' & E & D).
    - rewrite LW. fold n. lia.
    - apply (f_equal d_w) in E. change (nw = w') in E. now rewrite E.
  Qed.
  Lemma nw_len : length nw = n.
  Proof. rewrite (do_len _ _ dist). exact LW. Qed.
  Lemma nw_fin : Forall (fun v => is_finite v = true) nw.
  Proof. eapply Forall_impl; [|exact (do_unit _ _ dist)]. cbn. tauto. Qed.
  Lemma nw_ne : nw <> [].
  Proof. intros E. pose proof nw_len as L. rewrite E in L. pose proof n_pos. cbn in L. lia. Qed.
  Lemma nw_some : exists v, In v nw /\ (0 < B2R v)%R.
  Proof.
    destruct (Exists_dec (fun v : flt => (0 < B2R v)%R) nw) as [E|E]; [intros v; destruct (Rlt_dec 0 (B2R v)); auto|now apply Exists_exists in E|].
    exfalso. assert (Z0 : (total nw <= 0)%R).
    { unfold total. clear - E. induction nw as [|a l IH]; cbn [map Rsum]; [lra|]. assert (~ (0 < B2R a)%R) by (intros H; apply E; now left).
      assert (Rsum (map B2R l) <= 0)%R by (apply IH; intros H'; apply E; now right). lra. }
    pose proof (do_total _ _ dist) as D. rewrite LW in D. fold n in D. apply Rabs_le_inv in D.
    assert (4 * INR (n + 1) * bpow radix2 (- prec) <= / 2)%R.
    { rewrite bpow_opp, INR_IZR_INZ. pose proof (bpow_gt_0 radix2 prec) as BP. apply Rmult_le_reg_r with (bpow radix2 prec); auto. rewrite Rmult_assoc, Rinv_l by lra.
      assert (P0 : (0 < prec)%Z) by assumption. rewrite <- (IZR_Zpower radix2 prec) by lia. change (Zpower radix2 prec) with (2 ^ prec)%Z. apply IZR_le in N. rewrite mult_IZR, plus_IZR in N.
      rewrite Nat2Z.inj_add, plus_IZR. cbn. lra. }
    lra.
  Qed.
  Lemma gt0_of (v : flt) : is_finite v = true -> (fgt0 O v = true <-> (0 < B2R v)%R).
  Proof.
    clear. intros F. unfold fgt0. cbn [fltb f0 FOpsIEEE]. rewrite (Bltb_correct prec emax zero v eq_refl F). change (B2R zero) with 0%R. case Rlt_bool_spec; split; auto; [discriminate|lra].
  Qed.
  Lemma nw_good i : i < n -> (0 < B2R (nth i nw B754_nan))%R -> good i.
  Proof.
    intros Hi Hv. split; auto. assert (Hi' : i < length (d_w d)) by (rewrite LW; exact Hi).
    pose proof (proj1 (Forall_forall _ _) W _ (nth_In (d_w d) B754_nan Hi')) as [_ [L|E]]; auto. symmetry in E. pose proof (do_zero _ _ dist i Hi' E). lra.
  Qed.
  Lemma ix_good : Forall good ix /\ length ix = n.
  Proof.
    assert (M : good (argmax O nw)).
    { destruct (argmax_best prec emax nw nw_ne nw_fin) as [A B]. rewrite nw_len in A. apply nw_good; auto. destruct nw_some as (v & I & Hv). specialize (B v I). lra. }
    unfold ix, co_indices. split; [|rewrite map_length, combine_length, seq_length, nw_len; lia].
    apply Forall_forall. intros i Hi. apply in_map_iff in Hi as ((j, v) & <- & Hj). cbn [fst snd]. destruct (fgt0 O v) eqn:G; [|exact M].
    apply In_nth with (d := (0, B754_nan : flt)) in Hj as (q & Hq & E). rewrite combine_length, seq_length, nw_len in Hq.
    rewrite combine_nth in E by now rewrite seq_length. rewrite seq_nth in E by (rewrite nw_len; lia). injection E as <- <-. cbn [plus].
    assert (Hq' : q < length nw) by (rewrite nw_len; lia). apply nw_good; [lia|]. apply gt0_of; auto. exact (proj1 (Forall_forall _ _) nw_fin _ (nth_In nw B754_nan Hq')).
  Qed.
  Let cl := co_linearize O nodes nw.
  Let safe := fst (fst cl).
  Let sw := snd (fst cl).
  Let basis := fst (resolve_null_basis O svd eps rcond safe).
  Let rank := snd (resolve_null_basis O svd eps rcond safe).
  Let out := eliminate_all O sw basis rank.
  Lemma safe_len : length safe = n.
  Proof. unfold safe, cl, co_linearize. cbn [fst]. rewrite map_length. apply ix_good. Qed.
  Lemma sw_len : length sw = n.
  Proof. unfold sw, cl, co_linearize. cbn [fst snd]. rewrite map_length. apply ix_good. Qed.
  Lemma safe_cols : length (hd [] safe) = S m.
  Proof.
    pose proof ix_good as [G L]. pose proof n_pos. unfold safe, cl, co_linearize. cbn [fst]. fold ix. destruct ix as [|i l]; [cbn in L; lia|].
    cbn [map hd]. inversion G as [|? ? [Hi _] _]; subst. unfold nodes, push_forward.
    rewrite (nth_indep _ [] (cons (f1 O) [])) by (rewrite !map_length; exact Hi). rewrite (map_nth (cons (f1 O))). cbn [length]. f_equal.
    rewrite (nth_indep _ [] (phi p0)) by (rewrite map_length; exact Hi). rewrite map_nth. apply PH, nth_In. exact Hi.
  Qed.
  Lemma mask_le l : mask_count l <= length l.
  Proof. clear. unfold mask_count. induction l as [|[] l IH]; cbn; lia. Qed.
  Lemma null_facts : length basis = n /\ Forall (fun r => length r = n) basis /\ rank <= n /\ n - rank <= Nat.min n (S m).
  Proof.
    unfold basis, rank, resolve_null_basis. destruct (SV safe) as (A & B & C). destruct (svd safe) as [q s]. cbn [fst snd] in *. rewrite safe_len, safe_cols in *.
    split; [now rewrite rev_length|]. split; [apply Forall_forall; intros r Hr; apply in_rev in Hr; rewrite Forall_forall in B; auto|].
    split; [lia|]. match goal with |- _ - (_ - mask_count ?l) <= _ => pose proof (mask_le l) as M; rewrite map_length in M end. lia.
  Qed.
  Lemma out_len : length out = n.
  Proof. destruct null_facts as (A & B & C & _). apply (run_shape prec emax n sw basis rank sw_len B). lia. Qed.
  Lemma solve_eq mode : solve mode = (do r <- coresubset_nodes O safe out ix mode true; cs_init O p0 y0 (IData (map Z.of_nat (fst r)) (snd r)) (AData d)).
  Proof.
    unfold solve, carath_reduce, unpack2. cbn [normalize d_y d_x d_w]. rewrite UN. cbn [bind].
    unfold out, basis, rank, sw, safe, cl, nodes. fold nw. unfold ix. unfold co_linearize at 1. cbn [fst snd].
    unfold co_linearize. cbn [fst snd]. destruct (resolve_null_basis O svd eps rcond _). reflexivity.
  Qed.
  Lemma init_ok idx wt : length idx <= n -> cs_init O p0 y0 (IData (map Z.of_nat idx) wt) (AData d) = Ok (mkCS (map Z.of_nat idx) wt d).
  Proof.
    intros H. unfold cs_init. match goal with |- context [if ?b then _ else _] => replace b with false end; [reflexivity|]. symmetry. apply Nat.ltb_ge.
    unfold points, d_getitem, d_len. cbn [c_pre c_idx d_x]. unfold gather. rewrite !map_length. exact H.
  Qed.
  Let nz := map (fun v : flt => negb (feqb O v (f0 O))) out.
  Definition idxE := map (fun i => nth i ix 0) (positions nz 0).
  Definition wtE := map (fun i => nth i out zero) (positions nz 0).
  Lemma pos_lt i : In i (positions nz 0) -> i < n.
  Proof. intros H. apply positions_in in H as [H _]. unfold nz in H. rewrite map_length, out_len in H. lia. Qed.
  Lemma ix_nth i : i < n -> good (nth i ix 0).
  Proof. intros H. destruct ix_good as [G L]. rewrite Forall_forall in G. apply G, nth_In. lia. Qed.
  Lemma idxE_good : Forall good idxE.
  Proof. apply Forall_forall. intros i Hi. apply in_map_iff in Hi as (j & <- & Hj). apply ix_nth, pos_lt, Hj. Qed.
  Lemma pos_len : length (positions nz 0) <= n.
  Proof. rewrite positions_count. pose proof (mask_le nz) as M. unfold nz in M at 2. rewrite map_length, out_len in M. exact M. Qed.
  Lemma explicit_eq : solve MExplicit = Ok (mkCS (map Z.of_nat idxE) wtE d).
  Proof. rewrite solve_eq. cbn [coresubset_nodes bind fst snd]. unfold coresubset_nodes. cbn [bind fst snd]. apply (init_ok idxE). unfold idxE. rewrite map_length. apply pos_len. Qed.
  (** a weight that is not kept is zero *)
  Lemma kept v : In v out -> In v wtE \/ feqb O v (f0 O) = true.
  Proof.
    intros H. destruct (feqb O v (f0 O)) eqn:E; auto. left. unfold wtE, nz. clear - H E.
    assert (K : forall l pre, In v l -> In v (map (fun i => nth i (pre ++ l) zero) (positions (map (fun v : flt => negb (feqb O v (f0 O))) l) (length pre)))).
    { induction l as [|a l IH]; intros pre I; [destruct I|]. cbn [map positions]. rewrite map_app. apply in_or_app. destruct I as [->|I].
      - left. rewrite E. cbn [negb map]. left. rewrite app_nth2, Nat.sub_diag by lia. reflexivity.
      - right. replace (pre ++ a :: l) with ((pre ++ [a]) ++ l) by (now rewrite <- app_assoc). replace (S (length pre)) with (length (pre ++ [a])) by (rewrite app_length; cbn; lia). now apply IH. }
    exact (K out [] H).
  Qed.
  Lemma fin_all : Forall (fun v => is_finite v = true) wtE -> Forall (fun v => is_finite v = true) out.
  Proof.
    intros F. apply Forall_forall. intros v Hv. destruct (kept v Hv) as [I|E]; [rewrite Forall_forall in F; auto|]. clear - E. destruct v as [[]|[]| |[] ? ? ?]; try discriminate E; reflexivity.
  Qed.
  Lemma idx_bound : Forall (fun v => is_finite v = true) wtE -> length idxE <= Nat.min n (S m).
  Proof.
    intros F. destruct null_facts as (A & B & C & D). unfold idxE. rewrite map_length, positions_count. pose proof n_pos.
    destruct (Nat.eq_dec n 1) as [E|E].
    - pose proof pos_len as L. rewrite positions_count in L. rewrite E in *. cbn. lia.
    - destruct (sparse prec emax sw basis rank n sw_len B) as [_ S]; [lia..|]. fold out in S. specialize (S (fin_all F)). change (mask_count nz + rank <= n) in S. lia.
  Qed.
  Lemma wtE_nz : Forall (fun v => is_finite v = true) wtE -> Forall (fun v => B2R v <> 0%R) wtE.
  Proof.
    intros F. apply Forall_forall. intros v Hv E. pose proof (proj1 (Forall_forall _ _) F v Hv) as FV. apply in_map_iff in Hv as (i & <- & Hi).
    pose proof (pos_lt i Hi) as L. apply positions_in in Hi as [_ Hi]. rewrite Nat.sub_0_r in Hi. unfold nz in Hi.
    rewrite (nth_indep _ false (negb (feqb O zero (f0 O)))) in Hi by (rewrite map_length, out_len; lia). rewrite (map_nth (fun v => negb (feqb O v (f0 O)))) in Hi.
    rewrite feqb_zero, E in Hi by auto. rewrite Rlt_bool_false in Hi by lra. discriminate.
  Qed.
  Lemma fill_lt : argmin O out < n.
  Proof. rewrite <- out_len. apply argmin_lt. intros E. pose proof out_len as L. rewrite E in L. pose proof n_pos. cbn in L. lia. Qed.
  Lemma fill_zero : Forall (fun v => is_finite v = true) wtE -> Forall (fun v => (0 <= B2R v)%R) wtE -> length (positions nz 0) < n ->
    B2R (nth (argmin O out) out zero) = 0%R.
  Proof.
    intros F G L. pose proof (fin_all F) as FO. assert (NE : out <> []) by (intros E; pose proof out_len as L'; rewrite E in L'; pose proof n_pos; cbn in L'; lia).
    assert (NN : forall v, In v out -> (0 <= B2R v)%R).
    { intros v Hv. destruct (kept v Hv) as [I|E]; [rewrite Forall_forall in G; auto|]. rewrite feqb_zero in E by (rewrite Forall_forall in FO; auto).
      apply negb_true_iff, orb_false_iff in E as [E _]. revert E. case Rlt_bool_spec; auto; discriminate. }
    assert (EX : exists v, In v out /\ B2R v = 0%R).
    { destruct (Forall_dec (fun v : flt => B2R v <> 0%R)) with (l := out) as [A|A].
      - intros v. destruct (Req_EM_T (B2R v) 0); [right; tauto|left; auto].
      - exfalso. apply (Nat.lt_irrefl n). apply Nat.le_lt_trans with (2 := L). rewrite positions_count. unfold nz. rewrite <- out_len at 1. clear - A FO.
        unfold mask_count. induction out as [|a l IH]; cbn [map filter length]; [lia|]. inversion A; subst. inversion FO; subst.
        rewrite feqb_zero by auto. specialize (IH H4 H2). destruct (Rlt_bool_spec (B2R a) 0); cbn [negb orb length]; [lia|]. destruct (Rlt_bool_spec 0 (B2R a)); cbn [negb length]; [lia|]. lra.
      - apply neg_Forall_Exists_neg in A; [|intros v; destruct (Req_EM_T (B2R v) 0); [right; tauto|left; auto]]. apply Exists_exists in A as (v & I & E). exists v. split; auto. now destruct (Req_EM_T (B2R v) 0). }
    destruct EX as (v & I & E). destruct (argmin_least prec emax out NE FO) as [A B]. rewrite (nth_indep _ zero B754_nan) by (rewrite out_len; apply fill_lt).
    specialize (B v I). pose proof (NN _ (nth_In out B754_nan A)). lra.
  Qed.
  Lemma modes mode : mode <> MOther -> Forall (fun v => is_finite v = true) wtE -> exists i0 w0 q,
    solve mode = Ok (mkCS (map Z.of_nat (idxE ++ repeat i0 q)) (wtE ++ repeat w0 q) d) /\
    length (idxE ++ repeat i0 q) = match mode with MImplicitExplicit => Nat.min n (S m) | MImplicit => n | _ => length idxE end /\
    Forall good (idxE ++ repeat i0 q) /\
    (Forall (fun v => (0 <= B2R v)%R) wtE -> Forall (fun v => B2R v = 0%R) (repeat w0 q)).
  Proof.
    intros HM F. pose proof (idx_bound F) as B. assert (LE : length idxE = length (positions nz 0)) by (unfold idxE; now rewrite map_length).
    assert (K : forall size, length idxE <= size <= n ->
      exists i0 w0 q, cs_init O p0 y0 (IData (map Z.of_nat (map (fun i => nth i ix 0) (flatnonzero nz size (argmin O out)))) (map (fun i => nth i out (f0 O)) (flatnonzero nz size (argmin O out)))) (AData d)
        = Ok (mkCS (map Z.of_nat (idxE ++ repeat i0 q)) (wtE ++ repeat w0 q) d) /\ length (idxE ++ repeat i0 q) = size /\
        Forall good (idxE ++ repeat i0 q) /\ (Forall (fun v => (0 <= B2R v)%R) wtE -> Forall (fun v => B2R v = 0%R) (repeat w0 q))).
    { intros size [S1 S2]. exists (nth (argmin O out) ix 0), (nth (argmin O out) out zero), (size - length (positions nz 0)).
      assert (E : map (fun i => nth i ix 0) (flatnonzero nz size (argmin O out)) = idxE ++ repeat (nth (argmin O out) ix 0) (size - length (positions nz 0))).
      { unfold flatnonzero. rewrite firstn_all2, map_app, map_repeat' by lia. reflexivity. }
      assert (E2 : map (fun i => nth i out (f0 O)) (flatnonzero nz size (argmin O out)) = wtE ++ repeat (nth (argmin O out) out zero) (size - length (positions nz 0))).
      { unfold flatnonzero. rewrite firstn_all2, map_app, map_repeat' by lia. reflexivity. }
      assert (LL : length (idxE ++ repeat (nth (argmin O out) ix 0) (size - length (positions nz 0))) = size) by (rewrite app_length, repeat_length; lia).
      rewrite E, E2. rewrite init_ok by lia. split; auto. split; auto. split.
      - apply Forall_app. split; [apply idxE_good|]. apply Forall_forall. intros i Hi. apply repeat_spec in Hi. subst i. apply ix_nth, fill_lt.
      - intros G. apply Forall_forall. intros v Hv. destruct (Nat.eq_dec (size - length (positions nz 0)) 0) as [E0|E0]; [rewrite E0 in Hv; destruct Hv|].
        apply repeat_spec in Hv. subst v. apply fill_zero; auto. lia. }
    rewrite solve_eq. unfold coresubset_nodes. fold nz. rewrite safe_len. unfold ncols. rewrite safe_cols. destruct mode; cbn [bind fst snd]; [| | |congruence].
    - apply K. lia.
    - apply K. lia.
    - exists 0, zero, 0. cbn [repeat]. rewrite !app_nil_r. split; [apply (init_ok idxE); lia|]. split; auto. split; [apply idxE_good|]. intros _. constructor.
  Qed.
End Main.

(** ** C86: Caratheodory recombination in floating point.  [solve mode] is the coreset
    computed from data whose weights are numbers, not all zero, with [m] test functions.
    Whatever the decomposition returns, every index refers to a data point of positive
    weight.  If no weight overflows, there are at most m + 1 points, rounding
    notwithstanding; none of their weights is zero; and the other modes return the same
    points and weights, followed by copies of one point (with weight zero, if the
    weights are not negative). *)
Theorem C86_caratheodory :
  forall prec emax (Hp : Prec_gt_0 prec) (Hm : Prec_lt_emax prec emax) (Sm : SumOrder prec emax) P Y (p0 : P) (y0 : Y)
         (phi : P -> list (binary_float prec emax)) m svd eps rcond (d : Data P Y (binary_float prec emax)),
  d_y d = None -> length (d_w d) = d_len d -> Forall weight_ok (d_w d) ->
  (0 < total (d_w d) <= bpow radix2 (emax - 2))%R -> (8 * (Z.of_nat (d_len d) + 1) <= 2 ^ prec)%Z ->
  (forall x, In x (d_x d) -> length (phi x) = m) -> svd_shape svd ->
  let O := FOpsIEEE prec emax in
  let solve mode := carath_reduce O p0 y0 phi (resolve_null_basis O svd eps rcond) mode d in
  let usable i := i < d_len d /\ (0 < B2R (nth i (d_w d) B754_nan))%R in
  exists idx wt,
    solve MExplicit = Ok (mkCS (map Z.of_nat idx) wt d) /\ length wt = length idx /\ Forall usable idx /\
    (Forall (fun v => is_finite v = true) wt ->
       length idx <= Nat.min (d_len d) (S m) /\ Forall (fun v => B2R v <> 0%R) wt /\
       forall mode, mode <> MOther -> exists i0 w0 q,
         solve mode = Ok (mkCS (map Z.of_nat (idx ++ repeat i0 q)) (wt ++ repeat w0 q) d) /\
         length (idx ++ repeat i0 q) = match mode with MImplicitExplicit => Nat.min (d_len d) (S m) | MImplicit => d_len d | _ => length idx end /\
         Forall usable (idx ++ repeat i0 q) /\
         (Forall (fun v => (0 <= B2R v)%R) wt -> Forall (fun v => B2R v = 0%R) (repeat w0 q))).
Proof.
  intros prec emax Hp Hm Sm P Y p0 y0 phi m svd eps rcond d UN LW W T N PH SV O solve usable.
  exists (idxE prec emax phi svd eps rcond d), (wtE prec emax phi svd eps rcond d). split; [|split; [|split]].
  - eapply explicit_eq; eauto.
  - unfold idxE, wtE. now rewrite !map_length.
  - eapply idxE_good; eauto.
  - intros F. split; [eapply idx_bound; eauto|]. split; [eapply wtE_nz; eauto|]. intros mode HM. eapply modes; eauto.
Qed.
Print Assumptions C86_caratheodory.

(** ** C86: rounding makes weights negative.  In exact arithmetic all weights are
    non-negative (C34).  The points -1, 0, 1 with weights 5, 2, 5 in binary32: the
    decomposition [svd32] returns the correctly rounded singular vectors and values of the
    matrix with rows (1, x), and one of the two weights comes out negative. *)
Definition q32 : list (list F32) :=
  [[f32 9686330 (-24); f32 9686330 (-24); f32 9686330 (-24)];
   [f32 (-11863283) (-24); f32 0 0; f32 11863283 (-24)];
   [f32 13698540 (-25); f32 (-13698540) (-24); f32 13698540 (-25)]].
Definition s32 : list F32 := [f32 14529495 (-23); f32 11863283 (-23)].
Definition svd32 (A : list (list F32)) : list (list F32) * list F32 :=
  if (length A =? 3) && (length (hd [] A) =? 2) then (q32, s32)
  else (map (fun _ => repeat (f32 0 0) (length A)) A, repeat (f32 0 0) (Nat.min (length A) (length (hd [] A)))).
Definition seven : Data F32 unit F32 := mkData [f32 (-1) 0; f32 0 0; f32 1 0] [f32 5 0; f32 2 0; f32 5 0] None.
Lemma svd32_shape : svd_shape svd32.
Proof.
  intros A. unfold svd32. destruct (Nat.eqb_spec (length A) 3) as [E|E]; cbn [andb].
  - destruct (Nat.eqb_spec (length (hd [] A)) 2) as [E2|E2]; cbn [fst snd].
    + rewrite E, E2. split; [reflexivity|]. split; [repeat (constructor; [reflexivity|]); constructor|reflexivity].
    + rewrite map_length, repeat_length. split; auto. split; auto. apply Forall_forall. intros r Hr. apply in_map_iff in Hr as (x & <- & _). apply repeat_length.
  - cbn [fst snd]. rewrite map_length, repeat_length. split; auto. split; auto. apply Forall_forall. intros r Hr. apply in_map_iff in Hr as (x & <- & _). apply repeat_length.
Qed.
Definition run32 mode := carath_reduce F32Ops (f32 0 0) tt (fun x => [x]) (resolve_null_basis F32Ops svd32 (f32 1 (-23)) None) mode seven.
(** the exact decomposition *)
Definition exact_q : list (list R) :=
  let a := / sqrt 3 in let b := / sqrt 2 in let c := / sqrt 6 in
  [[a; a; a]; [- b; 0; b]; [c; - (2 * c); c]]%R.
Definition exact_s : list R := [sqrt 3; sqrt 2].
Definition exact_nodes : list (list R) := [[1; -1]; [1; 0]; [1; 1]]%R.
(** the two matrices agree up to [e] in every entry *)
Definition within (e : R) (u v : list R) : Prop := Forall2 (fun x y => (Rabs (x - y) <= e)%R) u v.

Lemma inv_sqrt (x : R) : (0 < x)%R -> (0 < / sqrt x)%R /\ (x * (/ sqrt x * / sqrt x) = 1)%R.
Proof.
  intros H. pose proof (sqrt_lt_R0 x H) as P. split; [now apply Rinv_0_lt_compat|]. rewrite <- (sqrt_sqrt x) at 1 by lra. field. lra.
Qed.
Lemma exact_svd : svd_ok exact_nodes 2 exact_q exact_s.
Proof.
  destruct (inv_sqrt 3 ltac:(lra)) as [PA HA]. destruct (inv_sqrt 2 ltac:(lra)) as [PB HB]. destruct (inv_sqrt 6 ltac:(lra)) as [PC HC].
  assert (SA : (sqrt 3 * / sqrt 3 = 1)%R) by (apply Rinv_r; pose proof (sqrt_lt_R0 3 ltac:(lra)); lra).
  assert (SB : (sqrt 2 * / sqrt 2 = 1)%R) by (apply Rinv_r; pose proof (sqrt_lt_R0 2 ltac:(lra)); lra).
  pose proof (sqrt_lt_R0 3 ltac:(lra)) as P3. pose proof (sqrt_lt_R0 2 ltac:(lra)) as P2. pose proof (sqrt_le_1 2 3 ltac:(lra) ltac:(lra) ltac:(lra)) as LE.
  unfold exact_q, exact_s, exact_nodes. cbv zeta. revert PA HA PB HB PC HC SA SB P3 P2 LE. generalize (/ sqrt 3)%R as a. generalize (/ sqrt 2)%R as b. generalize (/ sqrt 6)%R as c. generalize (sqrt 3) as s. generalize (sqrt 2) as t. intros t s c b a. intros.
  assert (AA : (a * a = / 3)%R) by lra. assert (BB : (b * b = / 2)%R) by lra. assert (CC : (c * c = / 6)%R) by lra.
  unfold svd_ok. cbn [length]. split; [reflexivity|]. split; [repeat (constructor; [reflexivity|]); constructor|]. split; [|split; [|split; [reflexivity|split; [|split]]]].
  - intros i j Hi Hj. cbn [length] in Hi, Hj. unfold dot.
    do 3 (destruct i as [|i]; [do 3 (destruct j as [|j]; [cbn; nra|]); lia|]). lia.
  - intros v L i Hi. destruct v as [|v0 [|v1 [|v2 [|]]]]; try discriminate L. unfold comb, dot.
    assert (X : forall r : R, (r * a ^ 2 = r * / 3 /\ r * b ^ 2 = r * / 2 /\ r * c ^ 2 = r * / 6)%R) by (intros r; cbn [pow]; rewrite !Rmult_1_r, AA, BB, CC; auto).
    pose proof (X v0) as (X1 & X2 & X3). pose proof (X v1) as (X4 & X5 & X6). pose proof (X v2) as (X7 & X8 & X9).
    do 3 (destruct i as [|i]; [cbn; ring_simplify; lra|]). lia.
  - repeat (constructor; [lra|]). constructor.
  - intros i j Hij Hj. cbn [length] in Hj. destruct i as [|[|i]], j as [|[|j]]; cbn; try lia; lra.
  - exists [[1; 0]; [0; 1]]%R. split; [reflexivity|]. split.
    + intros i j Hi Hj. cbn [length] in Hi, Hj. unfold dot. do 2 (destruct i as [|i]; [do 2 (destruct j as [|j]; [cbn; lra|]); lia|]). lia.
    + intros i q Hi Hq. unfold entry. do 3 (destruct i as [|i]; [do 2 (destruct q as [|q]; [cbn; lra|]); lia|]). lia.
Qed.

Lemma near_inv_sqrt (x y e : R) : (0 < x)%R -> (0 <= y - e)%R -> (0 <= e)%R -> (x * ((y - e) * (y - e)) <= 1)%R -> (1 <= x * ((y + e) * (y + e)))%R ->
  (Rabs (y - / sqrt x) <= e)%R.
Proof.
  intros Hx Hy He H1 H2. destruct (inv_sqrt x Hx) as [P E]. set (r := (/ sqrt x)%R) in *. apply Rabs_le. split.
  - apply Rnot_lt_le. intros L. assert (y + e < r)%R by lra. assert ((y + e) * (y + e) < r * r)%R by nra. nra.
  - apply Rnot_lt_le. intros L. assert (r < y - e)%R by lra. assert (r * r < (y - e) * (y - e))%R by nra. nra.
Qed.
Lemma near_sqrt (x y e : R) : (0 < x)%R -> (0 <= y - e)%R -> (0 <= e)%R -> ((y - e) * (y - e) <= x)%R -> (x <= (y + e) * (y + e))%R ->
  (Rabs (y - sqrt x) <= e)%R.
Proof.
  intros Hx Hy He H1 H2. pose proof (sqrt_lt_R0 x Hx) as P. pose proof (sqrt_sqrt x ltac:(lra)) as E. set (r := sqrt x) in *. apply Rabs_le. split.
  - apply Rnot_lt_le. intros L. assert (y + e < r)%R by lra. nra.
  - apply Rnot_lt_le. intros L. assert (r < y - e)%R by lra. nra.
Qed.
Lemma f32_dyadic (k : Z) (e : positive) : (Z.abs k < 2 ^ 24)%Z -> (Z.pos e <= 100)%Z -> B2R (f32 k (Z.neg e)) = (IZR k * / IZR (2 ^ Z.pos e))%R.
Proof.
  intros Hk He. unfold f32. change (Z.neg e) with (- Z.pos e)%Z. pose proof (binary_normalize_correct 24 128 _ _ mode_NE k (- Z.pos e) false) as C. cbv zeta in C.
  assert (RN : round radix2 (SpecFloat.fexp 24 128) (round_mode mode_NE) (F2R (Float radix2 k (- Z.pos e))) = F2R (Float radix2 k (- Z.pos e))).
  { apply round_generic; auto with typeclass_instances. apply generic_format_FLT. exists (Float radix2 k (- Z.pos e)); auto. change (SpecFloat.emin 24 128) with (-149)%Z. cbn [Fexp]. lia. }
  assert (EF : F2R (Float radix2 k (- Z.pos e)) = (IZR k * / IZR (2 ^ Z.pos e))%R).
  { unfold F2R. cbn [Fnum Fexp]. rewrite bpow_opp, <- (IZR_Zpower radix2) by lia. reflexivity. }
  rewrite RN, Rlt_bool_true in C; [rewrite (proj1 C); exact EF|].
  eapply Rlt_trans with (IZR (2 ^ 24)); [|change (2 ^ 24)%Z with (Zpower radix2 24); rewrite IZR_Zpower by lia; apply bpow_lt; lia].
  rewrite EF, Rabs_mult, <- abs_IZR. rewrite Rabs_pos_eq by (left; apply Rinv_0_lt_compat, IZR_lt; lia).
  apply Rle_lt_trans with (IZR (Z.abs k) * 1)%R; [|rewrite Rmult_1_r; apply IZR_lt; lia]. apply Rmult_le_compat_l; [apply IZR_le; lia|].
  assert (1 <= IZR (2 ^ Z.pos e))%R by (apply IZR_le; lia). pose proof (Rinv_le_contravar 1 _ ltac:(lra) H) as I. rewrite Rinv_1 in I. exact I.
Qed.
Lemma rounded_svd : Forall2 (within (/ IZR (2 ^ 25))) (map (map B2R) q32) exact_q /\ within (/ IZR (2 ^ 24)) (map B2R s32) exact_s.
Proof.
  assert (E0 : B2R (f32 0 0) = 0%R) by reflexivity.
  assert (A : (Rabs (IZR 9686330 * / IZR (2 ^ 24) - / sqrt 3) <= / IZR (2 ^ 25))%R) by (change (2 ^ 24)%Z with 16777216%Z; change (2 ^ 25)%Z with 33554432%Z; apply near_inv_sqrt; lra).
  assert (B : (Rabs (IZR 11863283 * / IZR (2 ^ 24) - / sqrt 2) <= / IZR (2 ^ 25))%R) by (change (2 ^ 24)%Z with 16777216%Z; change (2 ^ 25)%Z with 33554432%Z; apply near_inv_sqrt; lra).
  assert (C : (Rabs (IZR 13698540 * / IZR (2 ^ 25) - / sqrt 6) <= / IZR (2 ^ 26))%R) by (change (2 ^ 26)%Z with 67108864%Z; change (2 ^ 25)%Z with 33554432%Z; apply near_inv_sqrt; lra).
  assert (D : (Rabs (IZR 14529495 * / IZR (2 ^ 23) - sqrt 3) <= / IZR (2 ^ 24))%R) by (change (2 ^ 24)%Z with 16777216%Z; change (2 ^ 23)%Z with 8388608%Z; apply near_sqrt; lra).
  assert (E : (Rabs (IZR 11863283 * / IZR (2 ^ 23) - sqrt 2) <= / IZR (2 ^ 24))%R) by (change (2 ^ 24)%Z with 16777216%Z; change (2 ^ 23)%Z with 8388608%Z; apply near_sqrt; lra).
  apply Rabs_le_inv in A, B, C, D, E. unfold q32, s32, exact_q, exact_s, within. cbn [map].
  rewrite !f32_dyadic by lia. rewrite E0. change (2 ^ 23)%Z with 8388608%Z in *. change (2 ^ 24)%Z with 16777216%Z in *. change (2 ^ 25)%Z with 33554432%Z in *. change (2 ^ 26)%Z with 67108864%Z in *.
  split.
  - repeat (constructor; [repeat (constructor; [apply Rabs_le; lra|]); constructor|]). constructor.
  - repeat (constructor; [apply Rabs_le; lra|]). constructor.
Qed.

Theorem C86_negative_weight_refuted :
  svd_ok exact_nodes 2 exact_q exact_s /\
  Forall2 (within (/ IZR (2 ^ 25))) (map (map B2R) q32) exact_q /\ within (/ IZR (2 ^ 24)) (map B2R s32) exact_s /\
  exists c v, run32 MExplicit = Ok c /\ c_idx c = [1; 2]%Z /\ c_w c = [Bone; v] /\ B2R v = (- / IZR (2 ^ 25))%R.
Proof.
  split; [exact exact_svd|]. destruct rounded_svd as [A B]. split; [exact A|]. split; [exact B|].
  destruct (run32 MExplicit) as [c|e] eqn:E; [|exfalso; apply (f_equal (fun r => match r with Ok _ => true | Err _ => false end)) in E; vm_compute in E; discriminate].
  assert (EI : c_idx c = [1; 2]%Z).
  { transitivity (match run32 MExplicit with Ok c => c_idx c | Err _ => [] end); [now rewrite E|vm_compute; reflexivity]. }
  assert (EW : c_w c = [Bone; f32 (-1) (-25)]).
  { assert (M : map B2SF (c_w c) = map B2SF [Bone; f32 (-1) (-25)]).
    { transitivity (map B2SF (match run32 MExplicit with Ok c => c_w c | Err _ => [] end)); [now rewrite E|vm_compute; reflexivity]. }
    destruct (c_w c) as [|a [|b [|]]]; try discriminate M. cbn [map] in M. injection M as M1 M2. f_equal; [|f_equal]; now apply B2SF_inj. }
  exists c, (f32 (-1) (-25)). split; auto. split; auto. split; auto. rewrite f32_dyadic by lia. lra.
Qed.
Print Assumptions C86_negative_weight_refuted.

(** ** C86: in the implicit mode the negative weight is moreover repeated: the padding of
    the coreset is a copy of the point of smallest weight, which is not zero *)
Theorem C86_padding_weight_refuted :
  exists c v, run32 MImplicit = Ok c /\ c_idx c = [1; 2; 2]%Z /\ c_w c = [Bone; v; v] /\ B2R v = (- / IZR (2 ^ 25))%R.
Proof.
  destruct (run32 MImplicit) as [c|e] eqn:E; [|exfalso; apply (f_equal (fun r => match r with Ok _ => true | Err _ => false end)) in E; vm_compute in E; discriminate].
  assert (EI : c_idx c = [1; 2; 2]%Z).
  { transitivity (match run32 MImplicit with Ok c => c_idx c | Err _ => [] end); [now rewrite E|vm_compute; reflexivity]. }
  assert (EW : c_w c = [Bone; f32 (-1) (-25); f32 (-1) (-25)]).
  { assert (M : map B2SF (c_w c) = map B2SF [Bone; f32 (-1) (-25); f32 (-1) (-25)]).
    { transitivity (map B2SF (match run32 MImplicit with Ok c => c_w c | Err _ => [] end)); [now rewrite E|vm_compute; reflexivity]. }
    destruct (c_w c) as [|a [|b [|g [|]]]]; try discriminate M. cbn [map] in M. injection M as M1 M2 M3. f_equal; [|f_equal; [|f_equal]]; now apply B2SF_inj. }
  exists c, (f32 (-1) (-25)). split; auto. split; auto. split; auto. rewrite f32_dyadic by lia. lra.
Qed.
Print Assumptions C86_padding_weight_refuted.

(** ** the hypotheses of C86_caratheodory are met by this case, the weights are finite *)
Example C86_caratheodory_applies :
  d_y seven = None /\ length (d_w seven) = d_len seven /\ Forall weight_ok (d_w seven) /\
  (0 < total (d_w seven) <= bpow radix2 (128 - 2))%R /\ (8 * (Z.of_nat (d_len seven) + 1) <= 2 ^ 24)%Z /\
  (forall x : F32, In x (d_x seven) -> length [x] = 1) /\ svd_shape svd32 /\
  exists c, run32 MExplicit = Ok c /\ Forall (fun v => is_finite v = true) (c_w c) /\ length (c_idx c) = 2.
Proof.
  assert (V5 : B2R (f32 5 0) = 5%R) by (unfold f32; cbn; unfold F2R; cbn; lra).
  assert (V2 : B2R (f32 2 0) = 2%R) by (unfold f32; cbn; unfold F2R; cbn; lra).
  split; [reflexivity|]. split; [reflexivity|]. split.
  { repeat (constructor; [split; [reflexivity|rewrite ?V5, ?V2; lra]|]). constructor. }
  split.
  { unfold total. cbn [seven d_w map Rsum]. rewrite V5, V2. split; [lra|]. apply Rle_trans with (bpow radix2 4); [cbn; lra|apply bpow_le; lia]. }
  split; [cbn; lia|]. split; [reflexivity|]. split; [apply svd32_shape|].
  destruct C86_negative_weight_refuted as (_ & _ & _ & c & v & E & I & WT & _). exists c. split; auto. rewrite WT, I. split; [|reflexivity].
  assert (F : is_finite v = true).
  { assert (M : forallb is_finite (match run32 MExplicit with Ok c => c_w c | Err _ => [] end) = true) by (vm_compute; reflexivity). rewrite E, WT in M. cbn in M. now rewrite andb_true_r in M. }
  constructor; [reflexivity|]. constructor; [exact F|]. constructor.
Qed.

(** ** C86: tree recombination.  The negative weight is repeated by the padding of the
    intermediate coresets, so that the explicit mode returns more than m + 1 points: the
    points -4, -3, -2, -1 with weights 1, 3, 9, 5; [b32] is the correctly rounded
    orthonormal basis [exact_b] of the null space, of which there are two vectors. *)
Definition b32 : list (list F32) :=
  [[f32 9189260 (-24); f32 (-12252346) (-24); f32 12252346 (-25); f32 (-12252346) (-26)];
   [f32 0 0; f32 13698540 (-25); f32 13698540 (-25); f32 (-13698540) (-24)]].
Definition exact_b : list (list R) :=
  let a := / sqrt 30 in let c := / sqrt 6 in [[3 * a; - (4 * a); 2 * a; - a]; [0; c; c; - (2 * c)]]%R.
Definition eighteen : Data F32 unit F32 := mkData [f32 (-4) 0; f32 (-3) 0; f32 (-2) 0; f32 (-1) 0] [f32 1 0; f32 3 0; f32 9 0; f32 5 0] None.
(** the points in the order of their weights, with the constant test function in front *)
Definition tree_nodes : list (list R) := [[1; -4]; [1; -3]; [1; -1]; [1; -2]]%R.
Definition tree32 mode := tree_reduce F32Ops (f32 0 0) tt (fun x => [x]) (fun _ => (b32, 2)) (fun _ _ _ => Ok 1%Z) 2 mode eighteen.

Lemma exact_basis : null_ok tree_nodes 2 exact_b 2 /\ orthonormal 4 exact_b.
Proof.
  destruct (inv_sqrt 30 ltac:(lra)) as [PA HA]. destruct (inv_sqrt 6 ltac:(lra)) as [PC HC].
  unfold exact_b, tree_nodes. cbv zeta. revert PA HA PC HC. generalize (/ sqrt 30)%R as a. generalize (/ sqrt 6)%R as c. intros c a PA HA PC HC.
  split.
  - split; [cbn; lia|]. split; [repeat (constructor; [reflexivity|]); constructor|]. split; [|split].
    + intros j Hj col Hc. do 2 (destruct j as [|j]; [do 2 (destruct col as [|col]; [unfold entry; cbn; lra|]); lia|]). lia.
    + intros cs L H. destruct cs as [|x [|y [|]]]; try discriminate L. pose proof (H 0 ltac:(cbn; lia)) as H0. pose proof (H 1 ltac:(cbn; lia)) as H1.
      unfold comb in H0, H1. cbn in H0, H1. assert (X : x = 0%R) by nra. subst x. assert (y = 0%R) by nra. subst y. repeat constructor.
    + intros v L Hv. destruct v as [|v0 [|v1 [|v2 [|v3 [|]]]]]; try discriminate L.
      pose proof (Hv 0 ltac:(lia)) as H0. pose proof (Hv 1 ltac:(lia)) as H1. unfold entry in H0, H1. cbn in H0, H1.
      exists [v0 / (3 * a); (v2 - 2 * (v0 / 3)) / c]%R. split; [reflexivity|]. intros i Hi. unfold comb. cbn [firstn map2].
      assert (V3 : v3 = (- v0 - v1 - v2)%R) by lra. assert (V1 : v1 = (v2 - 2 * v0)%R) by lra.
      do 4 (destruct i as [|i]; [cbn; rewrite ?V3, ?V1; field; lra|]). cbn in Hi. lia.
  - intros i j Hi Hj. cbn [length] in Hi, Hj. unfold dot. do 2 (destruct i as [|i]; [do 2 (destruct j as [|j]; [cbn; nra|]); lia|]). lia.
Qed.
Lemma rounded_basis : Forall2 (within (/ IZR (2 ^ 25))) (map (map B2R) b32) exact_b.
Proof.
  assert (E0 : B2R (f32 0 0) = 0%R) by reflexivity.
  assert (A : (Rabs (IZR 12252346 * / IZR (2 ^ 26) - / sqrt 30) <= / IZR (2 ^ 27))%R) by (change (2 ^ 26)%Z with 67108864%Z; change (2 ^ 27)%Z with 134217728%Z; apply near_inv_sqrt; lra).
  assert (A3 : (Rabs (IZR 9189260 * / IZR (2 ^ 24) - 3 * / sqrt 30) <= / IZR (2 ^ 25))%R).
  { assert (N3 : (Rabs (IZR 9189260 * / IZR (2 ^ 24) / 3 - / sqrt 30) <= / IZR (2 ^ 25) / 3)%R) by (change (2 ^ 24)%Z with 16777216%Z; change (2 ^ 25)%Z with 33554432%Z; apply near_inv_sqrt; lra).
    apply Rabs_le_inv in N3. apply Rabs_le. lra. }
  assert (C : (Rabs (IZR 13698540 * / IZR (2 ^ 25) - / sqrt 6) <= / IZR (2 ^ 26))%R) by (change (2 ^ 26)%Z with 67108864%Z; change (2 ^ 25)%Z with 33554432%Z; apply near_inv_sqrt; lra).
  apply Rabs_le_inv in A, A3, C. unfold b32, exact_b, within. cbn [map]. rewrite !f32_dyadic by lia. rewrite E0.
  change (2 ^ 24)%Z with 16777216%Z in *. change (2 ^ 25)%Z with 33554432%Z in *. change (2 ^ 26)%Z with 67108864%Z in *. change (2 ^ 27)%Z with 134217728%Z in *.
  repeat (constructor; [repeat (constructor; [apply Rabs_le; lra|]); constructor|]). constructor.
Qed.
Theorem C86_tree_size_refuted :
  null_ok tree_nodes 2 exact_b 2 /\ orthonormal 4 exact_b /\ Forall2 (within (/ IZR (2 ^ 25))) (map (map B2R) b32) exact_b /\
  exists c v, tree32 MExplicit = Ok c /\ c_idx c = [3; 2; 3; 3]%Z /\ c_w c = [v; Bone; v; v] /\ B2R v = (- / IZR (2 ^ 26))%R.
Proof.
  destruct exact_basis as [A B]. split; [exact A|]. split; [exact B|]. split; [exact rounded_basis|].
  destruct (tree32 MExplicit) as [c|e] eqn:E; [|exfalso; apply (f_equal (fun r => match r with Ok _ => true | Err _ => false end)) in E; vm_compute in E; discriminate].
  assert (EI : c_idx c = [3; 2; 3; 3]%Z).
  { transitivity (match tree32 MExplicit with Ok c => c_idx c | Err _ => [] end); [now rewrite E|vm_compute; reflexivity]. }
  set (v := f32 (-1) (-26)).
  assert (EW : c_w c = [v; Bone; v; v]).
  { assert (M : map B2SF (c_w c) = map B2SF [v; Bone; v; v]).
    { transitivity (map B2SF (match tree32 MExplicit with Ok c => c_w c | Err _ => [] end)); [now rewrite E|vm_compute; reflexivity]. }
    destruct (c_w c) as [|a [|b [|g [|h [|]]]]]; try discriminate M. cbn [map] in M. injection M as M1 M2 M3 M4.
    f_equal; [|f_equal; [|f_equal; [|f_equal]]]; now apply B2SF_inj. }
  exists c, v. split; auto. split; auto. split; auto. unfold v. rewrite f32_dyadic by lia. lra.
Qed.
Print Assumptions C86_tree_size_refuted.
