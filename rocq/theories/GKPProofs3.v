(** * Greedy kernel points: the loss over the reals, and the results of reduce and refine *)
From Coq Require Import List ZArith Bool Reals Permutation Lia Lra.
From Verif Require Import Num Jax RSum JaxFacts ArgFacts DataModel GreedyModel UtilModel GKPModel MetricSpec GKPSpec
  DataMeanLemmas MapReduceProofs MapReduceProofs3 GreedyProofs CholProofs GKPProofs GKPProofs2.
Import ListNotations.
Open Scope nat_scope.

Definition unfin (v : ER) : R := match v with Fin r => r | _ => 0%R end.
Definition valid (n : nat) (i : Z) : Prop := in_range n i \/ i = (-1)%Z.

Lemma jget_valid {A} (d : A) l z i n : length l = n -> valid n i ->
  jget d (l ++ [z]) i = if (i <? 0)%Z then z else nth (Z.to_nat i) l d.
Proof.
  intros L H. unfold jget, clamp, wrap. rewrite app_length, L. simpl length. unfold valid, in_range in H.
  destruct (Z.ltb_spec i 0).
  - assert (i = (-1)%Z) by lia. subst i. replace (Z.to_nat _) with (length l) by lia. apply nth_middle.
  - replace (Z.to_nat (Z.max 0 (Z.min i (Z.of_nat (n + 1) - 1)))) with (Z.to_nat i) by lia. apply app_nth1. lia.
Qed.

Lemma fabs_fin r : fabs EROps (Fin r) = Fin (Rabs r).
Proof.
  unfold fabs, fneg. cbn. destruct (nltb ROps 0%R r) eqn:E.
  - apply Rltb_true in E. f_equal. rewrite Rabs_right; lra.
  - apply Rltb_false in E. f_equal. rewrite Rabs_left1 by assumption. lra.
Qed.

Lemma diag_fin v : diag EROps (map Fin v) = map (map Fin) (Rdiag v).
Proof.
  unfold diag, Rdiag. rewrite map_length, map_map. apply map_ext. intros i. rewrite map_upd, DataMeanLemmas.map_repeat.
  f_equal. change (f0 EROps) with (@Fin R 0%R). apply map_nth.
Qed.

Section Loss.
  Context {P : Type} (p0 : P) (k : P -> P -> R) (x : list P) (y : list R).
  Notation n := (length x).
  Hypothesis Hy : length y = n.
  Notation gram := (padded_gramian EROps (fun a b => Fin (k a b)) x).
  Notation resp := (map Fin y ++ [f0 EROps]).
  Definition GR i j := unfin (gram_at EROps gram i j).
  Definition YR i := unfin (jget (f0 EROps) resp i).

  Lemma gram_fin i j : gram_at EROps gram i j = Fin (GR i j).
  Proof.
    unfold GR. assert (F : exists r, gram_at EROps gram i j = Fin r); [|destruct F as [r ->]; reflexivity].
    unfold gram_at. set (row := jget [] gram i).
    assert (IR : In row gram) by (apply jget_In; unfold padded_gramian; destruct x; discriminate).
    assert (RN : row <> [] /\ forall v, In v row -> exists r, v = Fin r).
    { clearbody row. unfold padded_gramian in IR. apply in_app_iff in IR as [IR|[<-|[]]].
      - apply in_map_iff in IR as [a [<- _]]. split; [destruct x; discriminate|]. intros v Hv. apply in_app_iff in Hv as [Hv|[<-|[]]].
        + apply in_map_iff in Hv as [b [<- _]]. now eexists.
        + now exists 0%R.
      - split; [rewrite Nat.add_1_r; discriminate|]. intros v Hv. apply repeat_spec in Hv. subst. now exists 0%R. }
    destruct RN as [RN RF]. apply RF, jget_In, RN.
  Qed.
  Lemma resp_fin i : jget (f0 EROps) resp i = Fin (YR i).
  Proof.
    unfold YR. assert (F : exists r, jget (f0 EROps) resp i = Fin r); [|destruct F as [r ->]; reflexivity].
    assert (I : In (jget (f0 EROps) resp i) resp) by (apply jget_In; destruct y; discriminate).
    apply in_app_iff in I as [I|[<-|[]]]; [|now exists 0%R]. apply in_map_iff in I as [r [<- _]]. now exists r.
  Qed.
  Lemma GR_valid i j : valid n i -> valid n j -> GR i j = kz p0 k x i j.
  Proof.
    intros Hi Hj. unfold GR, gram_at, padded_gramian.
    rewrite (jget_valid [] _ _ i n) by (try assumption; apply map_length). unfold kz.
    destruct (Z.ltb_spec i 0) as [Ni|Ni]; cbn [orb].
    - rewrite Nat.add_1_r. cbn [repeat]. rewrite (repeat_cons n (f0 EROps)).
      rewrite (jget_valid (f0 EROps) _ _ j n) by (try assumption; apply repeat_length).
      destruct (j <? 0)%Z; [reflexivity|]. now rewrite nth_repeat.
    - destruct Hi as [Hi|Hi]; [|lia]. unfold in_range in Hi.
      rewrite (nth_map_lt _ x (Z.to_nat i) p0) by lia.
      rewrite (jget_valid (f0 EROps) _ _ j n) by (try assumption; apply map_length).
      destruct (Z.ltb_spec j 0); [reflexivity|]. destruct Hj as [Hj|Hj]; [|lia]. unfold in_range in Hj.
      now rewrite (nth_map_lt _ x (Z.to_nat j) p0) by lia.
  Qed.
  Lemma YR_valid i : valid n i -> YR i = yz y i.
  Proof.
    intros Hi. unfold YR, yz. rewrite (jget_valid (f0 EROps) _ _ i n) by (try assumption; now rewrite map_length).
    destruct (Z.ltb_spec i 0); [reflexivity|]. change (f0 EROps) with (@Fin R 0%R). now rewrite map_nth.
  Qed.

  Variables (solve : list (list ER) -> ER -> list ER -> list (list ER) -> list ER)
            (solveR : list (list R) -> R -> list R -> list (list R) -> list R).
  Hypothesis FS : finite_solver solve solveR.
  Variables (reg : R) (IR : list (list R)).

  Lemma loss_general c batch : exists r, gkp_loss EROps solve (Fin reg) resp gram (map (map Fin) IR) batch c = Fin r /\
    (Forall (valid n) c -> Forall (valid n) batch ->
     r = fit_loss p0 k x y c (solveR (gram_of p0 k x c) (Rabs reg) (responses_of y c) IR) batch).
  Proof.
    unfold gkp_loss. rewrite fabs_fin.
    assert (E1 : map (fun i => map (gram_at EROps gram i) c) c = map (map Fin) (map (fun i => map (GR i) c) c)).
    { rewrite map_map. apply map_ext. intros i. rewrite map_map. apply map_ext. intros j. apply gram_fin. }
    assert (E2 : gather (f0 EROps) resp c = map Fin (map YR c)).
    { unfold gather. rewrite map_map. apply map_ext. apply resp_fin. }
    rewrite E1, E2, FS. set (al := solveR _ _ _ _).
    assert (E3 : forall l, fdot EROps (map (fun i => gram_at EROps gram i l) c) (map Fin al) = Fin (Rdot (map (fun i => GR i l) c) al)).
    { intros l. rewrite <- fdot_fin, map_map. f_equal. apply map_ext. intros. apply gram_fin. }
    exists (Rsum (map (fun l => (Rdot (map (fun i => GR i l) c) al - 2 * YR l) * Rdot (map (fun i => GR i l) c) al)%R batch)).
    split.
    - rewrite <- fsum_fin, map_map. f_equal. apply map_ext. intros l. rewrite E3, resp_fin. reflexivity.
    - intros Vc Vb. rewrite Forall_forall in Vc, Vb.
      assert (A : al = solveR (gram_of p0 k x c) (Rabs reg) (responses_of y c) IR).
      { unfold al, gram_of, responses_of. f_equal.
        - apply map_ext_in. intros i Hi. apply map_ext_in. intros j Hj. apply GR_valid; auto.
        - apply map_ext_in. intros i Hi. apply YR_valid; auto. }
      rewrite <- A. unfold fit_loss. apply Rsum_map_ext. intros l Hl.
      assert (E4 : Rdot (map (fun i => GR i l) c) al = prediction p0 k x c al l).
      { unfold prediction. f_equal. apply map_ext_in. intros i Hi. apply GR_valid; auto. }
      rewrite E4, YR_valid by auto. reflexivity.
  Qed.
End Loss.

(** the identity flags over the reals *)
Definition flagR (idx0 : list Z) (t : nat) : list R :=
  map (fun u => if (u <=? t) || negb (nth u idx0 0%Z <? 0)%Z then 1%R else 0%R) (seq 0 (length idx0)).
Lemma flags_real m idx n t : Forall (valid n) (initial_indices m idx) ->
  forall (s : gkp (V := ER) (P := unit) (K := unit)), True ->
  flags EROps (gather (f0 EROps) (repeat (f1 EROps) n ++ [f0 EROps]) (initial_indices m idx)) (S t)
  = map Fin (flagR (initial_indices m idx) t).
Proof.
  intros V _ _. set (idx0 := initial_indices m idx) in *. rewrite Forall_forall in V.
  apply list_ext with (d := NaN); [unfold flagR; now rewrite flags_length, gather_length, !map_length, seq_length|].
  rewrite flags_length, gather_length. intros j Hj. rewrite flags_nth by now rewrite gather_length.
  unfold flagR. rewrite map_map, (nth_map_lt _ (seq 0 (length idx0)) j 0) by (rewrite seq_length; lia). rewrite seq_nth by lia. cbn [plus].
  unfold gather. rewrite (nth_map_lt _ idx0 j 0%Z) by lia.
  rewrite (jget_valid (f0 EROps) _ _ _ n) by (try (apply V; now apply nth_In); apply repeat_length).
  destruct (Nat.ltb_spec j (S t)), (Nat.leb_spec j t); try lia; cbn [orb]; auto.
  destruct (Z.ltb_spec (nth j idx0 0%Z) 0); cbn [negb]; auto.
  assert (Hv : valid n (nth j idx0 0%Z)) by (apply V; now apply nth_In). destruct Hv as [Hv|Hv]; [|lia]. unfold in_range in Hv.
  now rewrite nth_repeat_lt by lia.
Qed.

Section Run.
  Context {P K : Type} (p0 : P) (s : gkp (V := ER) (P := P) (K := K)) (k : P -> P -> R) (reg : R)
    (solveR : list (list R) -> R -> list R -> list (list R) -> list R).
  Variables (x : list P) (w : list ER) (y : list R) (idx : list Z) (cw : list ER).
  Notation n := (length x).
  Notation m := (gk_size s).
  Notation d := (mkData x w (Some (map Fin y))).
  Notation idx0 := (initial_indices m idx).
  Notation cb := (batch_size (gk_candidates s) n).
  Hypothesis Hy : length y = n.
  Hypothesis Hk : gk_kernel s = fun a b => Fin (k a b).
  Hypothesis Hreg : gk_reg s = Fin reg.
  Hypothesis FS : finite_solver (gk_solve s) solveR.
  Hypothesis Hs : split_ok (gk_split s).
  Hypothesis Hp : permutation_ok (gk_permutation s).
  Hypothesis Hc : batch_arg_ok (gk_candidates s).
  Hypothesis Hl : batch_arg_ok (gk_loss s).
  Hypothesis Hm : m <= n.
  Hypothesis Hn : 0 < n.
  Hypothesis Hv : Forall (valid n) idx0.

  (** what the solver minimises in step [t] *)
  Definition objective (su : @setup ER) (t : nat) (c : list Z) : R :=
    fit_loss p0 k x y c (solveR (gram_of p0 k x c) (Rabs reg) (responses_of y c) (Rdiag (flagR idx0 t))) (nth t (su_loss su) []).

  Lemma gkp_run : exists su res, setup_batch_solver EROps s idx n = Ok su /\ setup_spec s idx n su /\
    length res = m /\
    gkp_refine EROps p0 s (mkCS idx cw d) None = Ok (mkCS res (repeat (Fin 1%R) m) d, padded_gramian EROps (gk_kernel s) x) /\
    Forall (valid n) res /\
    forall u, u < m ->
      let cur := firstn u res ++ skipn u idx0 in
      let ch := nth u res 0%Z in
      let B := nth u (su_cand su) [] in
      In ch B /\
      (gk_unique s = false \/ (exists b, In b B /\ ~ In b (others u cur)) ->
       (gk_unique s = true -> ~ In ch (others u cur)) /\
       forall b, In b B -> (gk_unique s = true -> ~ In b (others u cur)) -> (objective su u (upd u ch cur) <= objective su u (upd u b cur))%R).
  Proof.
    destruct (setup_ok s idx n Hs Hp Hc Hl) as [su [ES SS]]. exists su.
    set (gram := padded_gramian EROps (gk_kernel s) x). set (resp := map Fin y ++ [f0 EROps]).
    set (lossR := fun t c => unfin (loss_at s su resp gram (v0 s idx n) t c)).
    assert (LG : forall t c, exists r, loss_at s su resp gram (v0 s idx n) t c = Fin r /\
       (Forall (valid n) c -> Forall (valid n) (nth t (su_loss su) []) -> r = objective su t c)).
    { intros t c. unfold loss_at, gram, resp. rewrite Hk, Hreg. unfold v0.
      rewrite (flags_real m idx n t Hv (mkGKP 0 (fun _ _ => NaN) NaN true None None (fun _ _ _ _ => []) (fun _ _ => []) (fun _ _ => []) tt) I).
      rewrite diag_fin. unfold objective. now apply loss_general. }
    assert (LF : forall t c, t < m -> loss_at s su resp gram (v0 s idx n) t c = Fin (lossR t c)).
    { intros t c _. unfold lossR. destruct (LG t c) as [r [-> _]]. reflexivity. }
    assert (W : 0 < width s n).
    { unfold width. destruct (_ <? _)%Z; lia. }
    pose proof (gkp_loop s su resp gram (v0 s idx n) (width s n) lossR LF) as LOOP.
    rewrite (ss_idx _ _ _ _ SS) in LOOP.
    specialize (LOOP (initial_indices_length _ _) (ss_len _ _ _ _ SS) W (fun r => setup_shape s idx n Hc su r SS) (ss_id _ _ _ _ SS) (ss_cs _ _ _ _ SS)).
    set (out := fori m _ _) in LOOP. destruct LOOP as [Ll Lt Li Lc Lr].
    rewrite (ss_idx _ _ _ _ SS) in Lt, Lr.
    exists (k_idx out). split; [exact ES|]. split; [exact SS|]. split; [exact Ll|].
    assert (VR : Forall (valid n) (k_idx out)).
    { apply Forall_forall. intros i Hi. apply In_nth with (d := 0%Z) in Hi as [u [Hu <-]]. rewrite Ll in Hu.
      destruct (Lr u Hu) as [I _]. destruct (candidate_cases s idx n su u _ SS Hu I) as [Q|Q]; [now left|].
      rewrite Q. rewrite Forall_forall in Hv. apply Hv, nth_In. now rewrite initial_indices_length. }
    split; [|split; [exact VR|]].
    - unfold gkp_refine. cbn [c_pre c_idx d_x d_y]. rewrite ES. cbn [bind]. fold gram. fold resp.
      rewrite (ss_idx _ _ _ _ SS) at 1. fold out.
      unfold cs_build, conv_data. cbn [bind]. unfold cs_init, points, d_getitem, d_len. cbn [d_x c_idx c_pre].
      rewrite gather_length, Ll. destruct (Nat.ltb_spec n m); [lia|]. reflexivity.
    - intros u Hu cur ch B. destruct (Lr u Hu) as [L1 L2]. split; [exact L1|]. intros A. destruct (L2 A) as [L3 L4]. split; [exact L3|].
      intros b Ib Nb. specialize (L4 b Ib Nb).
      assert (VL : Forall (valid n) (nth u (su_loss su) [])).
      { destruct (ss_loss _ _ _ _ SS u Hu) as [q [-> [_ [R _]]]]. apply Forall_forall. intros z Hz.
        apply in_map_iff in Hz as [i [<- Hi]]. left. apply R in Hi. unfold in_range. lia. }
      assert (VC : forall z, In z B -> Forall (valid n) (upd u z cur)).
      { intros z Hz. apply Forall_forall. intros i Hi.
        assert (CL : length cur = m) by (unfold cur; rewrite app_length, firstn_length, skipn_length, initial_indices_length; lia).
        rewrite upd_sp in Hi by lia. rewrite Forall_forall in VR, Hv.
        assert (VCur : forall j, In j cur -> valid n j).
        { intros j Hj. unfold cur in Hj. apply in_app_iff in Hj as [Hj|Hj].
          - apply VR. rewrite <- (firstn_skipn u (k_idx out)). apply in_app_iff. now left.
          - apply Hv. rewrite <- (firstn_skipn u idx0). apply in_app_iff. now right. }
        apply in_app_iff in Hi as [Hi|[<-|Hi]].
        - apply VCur. rewrite <- (firstn_skipn u cur). apply in_app_iff. now left.
        - destruct (candidate_cases s idx n su u z SS Hu Hz) as [Q|Q]; [now left|]. rewrite Q. apply Hv, nth_In. now rewrite initial_indices_length.
        - apply VCur. rewrite <- (firstn_skipn (S u) cur). apply in_app_iff. now right. }
      assert (LE : forall z, In z B -> lossR u (upd u z cur) = objective su u (upd u z cur)).
      { intros z Hz. unfold lossR. destruct (LG u (upd u z cur)) as [r [-> Hr]]. cbn [unfin]. apply Hr; auto. }
      rewrite <- !LE by assumption. exact L4.
  Qed.
End Run.
