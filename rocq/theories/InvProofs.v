(** * Proofs for C74: every solver commutes with maps of the feature space *)
From Coq Require Import List ZArith Bool Lia Arith.
From Verif Require Import Num Jax JaxFacts DataModel MeanModel GreedyModel CholModel MetricModel MapReduceModel KTModel GKPModel InvSpec.
Import ListNotations.

Lemma rmap_bind {A B C} (r : result A) (f : A -> result B) (g : B -> C) :
  rmap g (bind r f) = bind r (fun a => rmap g (f a)).
Proof. destruct r; reflexivity. Qed.
Lemma bind_rmap {A B C} (r : result A) (g : A -> B) (f : B -> result C) :
  bind (rmap g r) f = bind r (fun a => f (g a)).
Proof. destruct r; reflexivity. Qed.
Lemma bind_ext {A B} (r : result A) (f g : A -> result B) : (forall a, r = Ok a -> f a = g a) -> bind r f = bind r g.
Proof. intros H. destruct r; [apply H; reflexivity|reflexivity]. Qed.
Lemma fori_ext {S} n (f g : nat -> S -> S) s : (forall i s, (i < n)%nat -> f i s = g i s) -> fori n f s = fori n g s.
Proof.
  revert s. induction n; intros s H; [reflexivity|]. rewrite !fori_S, IHn by (intros; apply H; lia).
  apply H. lia.
Qed.
Lemma combine_map_l {A B C} (f : A -> B) (l : list A) (m : list C) :
  combine (map f l) m = map (fun p => (f (fst p), snd p)) (combine l m).
Proof. revert m. induction l; destruct m; simpl; f_equal; auto. Qed.
Lemma map2_map_l {A B C D} (f : A -> B) (g : B -> C -> D) (l : list A) (m : list C) :
  map2 g (map f l) m = map2 (fun a c => g (f a) c) l m.
Proof. revert m. induction l; destruct m; simpl; f_equal; auto. Qed.

Lemma map_repeat_nat {A B} (f : A -> B) a n : map f (repeat a n) = repeat (f a) n.
Proof. induction n; simpl; f_equal; auto. Qed.

Section Nat.
  Context {V : Type} (O : FOps V) {P Q Y K : Type} (phi : P -> Q) (p0 : P) (q0 : Q) (y0 : Y).
  Notation "'mD'" := (map_data (Y:=Y) (V:=V) phi).
  Notation "'mC'" := (map_coreset (Y:=Y) (V:=V) phi).
  Definition nz (l : list P) : Prop := q0 = phi p0 \/ l <> [].

  (** weights of the right length, needed only when the padding points do not correspond *)
  Definition wfd (d : Data P Y V) : Prop := q0 = phi p0 \/ length (d_x d) = length (d_w d).
  Definition wfc (c : Coresubset P Y V) : Prop := q0 = phi p0 \/ length (c_idx c) = length (c_w c).

  Lemma jget_nat l i : nz l -> jget q0 (map phi l) i = phi (jget p0 l i).
  Proof.
    intros H. unfold jget. rewrite map_length. destruct H as [->|H]; [apply map_nth|].
    rewrite (nth_indep _ q0 (phi p0)); [apply map_nth|]. rewrite map_length.
    unfold clamp. destruct l; [congruence|]. simpl length. lia.
  Qed.
  Lemma gather_nat l idx : nz l -> gather q0 (map phi l) idx = map phi (gather p0 l idx).
  Proof. intros H. unfold gather. rewrite map_map. apply map_ext. intros i. now apply jget_nat. Qed.
  Lemma getitem_nat d idx : nz (d_x d) ->
    d_getitem O q0 y0 (mD d) idx = mD (d_getitem O p0 y0 d idx).
  Proof. intros H. unfold d_getitem, map_data; simpl. now rewrite gather_nat. Qed.
  Lemma points_nat c : nz (d_x (c_pre c)) -> points O q0 y0 (mC c) = mD (points O p0 y0 c).
  Proof.
    intros H. unfold points. change (c_pre (mC c)) with (mD (c_pre c)). rewrite getitem_nat by assumption. reflexivity.
  Qed.
  Lemma points_nat' c : nz (d_x (c_pre c)) \/ c_idx c = [] -> points O q0 y0 (mC c) = mD (points O p0 y0 c).
  Proof.
    intros [H|H]; [now apply points_nat|]. unfold points, map_data, d_getitem; cbn. rewrite H. reflexivity.
  Qed.
  Lemma len_nat (d : Data P Y V) : d_len (mD d) = d_len d.
  Proof. unfold d_len. simpl. apply map_length. Qed.
  Lemma len_points_nat (c : Coresubset P Y V) : d_len (points O q0 y0 (mC c)) = d_len (points O p0 y0 c).
  Proof. unfold d_len, points; simpl. unfold gather. now rewrite !map_length. Qed.
  Lemma cs_init_nat idx w d :
    cs_init O q0 y0 (IData idx w) (AData (mD d)) = rmap (map_coreset phi) (cs_init O p0 y0 (IData idx w) (AData d)).
  Proof.
    unfold cs_init. rewrite len_nat.
    change (mkCS idx w (mD d)) with (mC (mkCS idx w d)). rewrite len_points_nat.
    destruct (_ <? _)%nat; reflexivity.
  Qed.
  Lemma cs_build_nat idx d :
    cs_build O q0 y0 (IArray idx) (AData (mD d)) = rmap (map_coreset phi) (cs_build O p0 y0 (IArray idx) (AData d)).
  Proof. unfold cs_build. simpl bind. cbv beta. apply cs_init_nat. Qed.
  Lemma as_data_nat x : as_data O (map phi x) = mD (as_data O x).
  Proof. unfold as_data, map_data. simpl. now rewrite map_length. Qed.
  Lemma wf_as_data x : wfd (as_data O x).
  Proof. right. cbn. now rewrite repeat_length. Qed.
  Lemma wf_points c : wfc c -> wfd (points O p0 y0 c).
  Proof. intros [H|H]; [now left|right]. cbn. unfold gather. now rewrite map_length. Qed.
  Lemma wf_getitem d idx : wfd (d_getitem O p0 y0 d idx).
  Proof. right. cbn. unfold gather. now rewrite !map_length. Qed.
  Lemma unpack2_nat (d : Data P Y V) : unpack2 (mD d) = rmap (fun p => (map phi (fst p), snd p)) (unpack2 d).
  Proof. unfold unpack2. simpl. destruct (d_y d); reflexivity. Qed.
  Lemma pairwise_nat (k : Q -> Q -> V) x y :
    pairwise k (map phi x) (map phi y) = pairwise (pull phi k) x y.
  Proof. unfold pairwise. rewrite map_map. apply map_ext. intros a. now rewrite map_map. Qed.

  (** ** kernel means *)
  Definition mB (b : list P * list V) : list Q * list V := (map phi (fst b), snd b).
  Lemma slice_sums_nat k xb yb acc :
    slice_sums O k (mB xb) (map mB yb) acc = slice_sums O (pull phi k) xb yb acc.
  Proof.
    unfold slice_sums. generalize (acc, @nil (list V)). induction yb as [|b yb IH]; intros s; [reflexivity|].
    simpl. rewrite IH. unfold mB; simpl. rewrite pairwise_nat. reflexivity.
  Qed.
  Lemma block_scan_nat k xb yb :
    block_scan O k (map mB xb) (map mB yb) = block_scan O (pull phi k) xb yb.
  Proof.
    unfold block_scan. generalize (f0 O, @nil (list V)). induction xb as [|b xb IH]; intros s; [reflexivity|].
    simpl. rewrite IH. destruct s as [acc cols]. rewrite slice_sums_nat. unfold mB; simpl; rewrite ?map_length.
    reflexivity.
  Qed.
  Lemma block_convert_nat d bs : q0 = phi p0 ->
    block_convert O q0 y0 (mD d) bs = rmap (fun r => (map mB (fst r), snd r)) (block_convert O p0 y0 d bs).
  Proof.
    intros E. unfold block_convert.
    change (d_len (normalize O true (mD d))) with (d_len (mD d)).
    change (d_len (normalize O true d)) with (d_len d).
    rewrite len_nat. destruct (eff_block (d_len d) bs) eqn:Eb; [reflexivity|].
    set (b := S n). clearbody b. cbn [rmap fst snd]. do 2 f_equal.
    unfold zero_pad, normalize, map_data; cbn [d_x d_w d_y].
    rewrite E. rewrite <- (map_repeat_nat phi). rewrite <- map_app, map_chunks.
    apply combine_map_l.
  Qed.

  Definition mean_nat (k : Q -> Q -> V) : Prop := forall x y ax bs, wfd x -> wfd y ->
    compute_mean O q0 y0 k (mD x) (mD y) ax bs = compute_mean O p0 y0 (pull phi k) x y ax bs.

  Lemma compute_mean_nat k : q0 = phi p0 -> mean_nat k.
  Proof.
    intros E x y ax bs _ _. unfold compute_mean.
    destruct ax; rewrite (block_convert_nat _ _ E); destruct (block_convert O p0 y0 _ _) as [[bx nx]|]; simpl; try reflexivity;
      rewrite (block_convert_nat _ _ E); destruct (block_convert O p0 y0 _ _) as [[by_ ny]|]; simpl; try reflexivity;
      rewrite block_scan_nat; reflexivity.
  Qed.

  (** ** greedy solvers *)
  Lemma kcol_nat (k : Q -> Q -> V) x a : kcol k (map phi x) (phi a) = kcol (pull phi k) x a.
  Proof. unfold kcol. now rewrite map_map. Qed.
  Lemma greedy_body_nat k x dw cw sel u ord i s : nz x ->
    greedy_body O q0 k (map phi x) dw cw sel u ord i s = greedy_body O p0 (pull phi k) x dw cw sel u ord i s.
  Proof. intros H. unfold greedy_body. rewrite !jget_nat by assumption. rewrite !kcol_nat. reflexivity. Qed.
  Lemma greedy_selection_nat k c sel m u bs ord : mean_nat k -> nz (d_x (c_pre c)) -> wfc c ->
    greedy_selection O q0 y0 (mC c) sel m k u bs ord =
    rmap (map_coreset phi) (greedy_selection O p0 y0 c sel m (pull phi k) u bs ord).
  Proof.
    intros HM H HW. unfold greedy_selection. change (c_pre (mC c)) with (mD (c_pre c)).
    rewrite unpack2_nat. cbn [c_idx c_w map_coreset]. 
    destruct (unpack2 (c_pre c)) as [[x dw]|e] eqn:EU; [|reflexivity].
    cbn [rmap bind fst snd].
    assert (x = d_x (c_pre c)).
    { unfold unpack2 in EU. destruct (d_y (c_pre c)); [discriminate|]. now injection EU. }
    subst x. rewrite as_data_nat.
    match goal with |- context [points O q0 y0 (mkCS ?i ?w (mD ?d))] =>
      change (mkCS i w (mD d)) with (mC (mkCS i w d)) end.
    rewrite points_nat by exact H.
    rewrite HM; [rewrite rmap_bind|apply wf_as_data|apply wf_points].
    2:{ destruct HW as [HW|HW]; [now left|right]. cbn. rewrite !app_length, !repeat_length. now rewrite HW. }
    destruct (compute_mean O p0 y0 (pull phi k) _ _ _ _) as [[v|mean]|e]; [reflexivity| |reflexivity].
    cbn [bind rmap]. unfold map_coreset; cbn [c_idx c_w c_pre].
    erewrite fori_ext; [reflexivity|]. intros. apply greedy_body_nat. exact H.
  Qed.
  Lemma initial_nat fill m d :
    initial_coresubset O q0 y0 fill m (mD d) = rmap (map_coreset phi) (initial_coresubset O p0 y0 fill m d).
  Proof. apply cs_init_nat. Qed.
  Lemma cs_init_pre idx w (d : Data P Y V) c : cs_init O p0 y0 (IData idx w) (AData d) = Ok c -> c = mkCS idx w d.
  Proof. unfold cs_init. destruct (_ <? _)%nat; congruence. Qed.

  Definition pull_herding (h : @herding V Q) : @herding V P :=
    mkHerding (h_size h) (pull phi (h_kernel h)) (h_unique h) (h_bs h) (h_mode h).
  Lemma gramian_nat k d bs : mean_nat k -> wfd d ->
    gramian_row_mean O q0 y0 k (mD d) bs = gramian_row_mean O p0 y0 (pull phi k) d bs.
  Proof. intros HM H. now apply HM. Qed.
  Lemma herding_refine_nat h ord c st : mean_nat (h_kernel h) -> nz (d_x (c_pre c)) -> wfd (c_pre c) -> wfc c ->
    herding_refine O q0 y0 h ord (mC c) st =
    rmap (on_fst (map_coreset phi)) (herding_refine O p0 y0 (pull_herding h) ord c st).
  Proof.
    intros HM H HD HW. unfold herding_refine.
    change (c_pre (mC c)) with (mD (c_pre c)). rewrite gramian_nat by assumption.
    rewrite rmap_bind. apply bind_ext. intros g _.
    rewrite (greedy_selection_nat (h_kernel h)) by assumption.
    rewrite bind_rmap, rmap_bind. apply bind_ext. intros c' _. reflexivity.
  Qed.
  Lemma wfc_same idx (v : V) (d : Data P Y V) : wfc (mkCS idx (repeat v (length idx)) d).
  Proof. right. cbn. now rewrite repeat_length. Qed.
  Lemma wfc_initial fill n (d : Data P Y V) : wfc (mkCS (repeat fill n) (repeat (f0 O) n) d).
  Proof. right. cbn. now rewrite !repeat_length. Qed.
  Lemma herding_reduce_nat h ord d st : mean_nat (h_kernel h) -> nz (d_x d) -> wfd d ->
    herding_reduce O q0 y0 h ord (mD d) st =
    rmap (on_fst (map_coreset phi)) (herding_reduce O p0 y0 (pull_herding h) ord d st).
  Proof.
    intros HM H HD. unfold herding_reduce. rewrite initial_nat, bind_rmap, rmap_bind.
    cbn [pull_herding h_size]. apply bind_ext. intros c Ec.
    apply cs_init_pre in Ec. subst c. apply herding_refine_nat; try assumption. apply wfc_initial.
  Qed.
  Lemma greedy_selection_pre k (c : Coresubset P Y V) sel m u bs ord c' :
    greedy_selection O p0 y0 c sel m k u bs ord = Ok c' -> c_pre c' = c_pre c /\ wfc c'.
  Proof.
    unfold greedy_selection. destruct (unpack2 (c_pre c)) as [[x dw]|]; [|discriminate].
    simpl. destruct (compute_mean O p0 y0 k _ _ _ _) as [[v|mean]|]; try discriminate.
    simpl. intros E. injection E as <-. split; [reflexivity|apply wfc_same].
  Qed.
  Lemma herding_refine_pre h ord (c : Coresubset P Y V) st c' g :
    herding_refine O p0 y0 h ord c st = Ok (c', g) -> c_pre c' = c_pre c /\ wfc c'.
  Proof.
    unfold herding_refine. destruct (match st with Some _ => _ | None => _ end) as [gr|]; [|discriminate].
    simpl. destruct (greedy_selection _ _ _ _ _ _ _ _ _ _) as [c1|] eqn:E; [|discriminate].
    simpl. intros H. injection H as <- _. eapply greedy_selection_pre; eauto.
  Qed.
  Lemma herding_iterative_nat h modes ords d st iters : mean_nat (h_kernel h) -> nz (d_x d) -> wfd d ->
    herding_reduce_iterative O q0 y0 h modes ords (mD d) st iters =
    rmap (on_fst (map_coreset phi)) (herding_reduce_iterative O p0 y0 (pull_herding h) modes ords d st iters).
  Proof.
    intros HM H HD. unfold herding_reduce_iterative. rewrite initial_nat, bind_rmap, rmap_bind.
    cbn [pull_herding h_size]. apply bind_ext. intros c Ec.
    apply cs_init_pre in Ec.
    assert (HP : c_pre c = d) by (subst c; reflexivity).
    assert (HW : wfc c) by (subst c; apply wfc_initial). clear Ec.
    change (c_pre (mC c)) with (mD (c_pre c)). rewrite gramian_nat by (rewrite ?HP; assumption).
    rewrite rmap_bind. apply bind_ext. intros g _.
    match goal with |- bind (fori _ ?F _) _ = _ => set (FQ := F) end.
    match goal with |- _ = rmap _ (bind (fori _ ?F _) _) => set (FP := F) end.
    assert (L : fori iters FQ (Ok (mC c)) = rmap (map_coreset phi) (fori iters FP (Ok c)) /\
                forall r, fori iters FP (Ok c) = Ok r -> c_pre r = d /\ wfc r).
    { induction iters as [|n [IH1 IH2]].
      - split; [reflexivity|]. intros r E. cbn in E. injection E as <-. now split.
      - rewrite !fori_S, IH1. destruct (fori n FP (Ok c)) as [r|e]; [|split; [reflexivity|discriminate]].
        specialize (IH2 r eq_refl). destruct IH2 as [IH2 IH3]. unfold FQ, FP. cbn [bind rmap].
        set (h' := mkHerding (h_size h) (h_kernel h) (h_unique h) (h_bs h) (modes n)).
        rewrite (herding_refine_nat h') by (try exact HM; try exact IH3; rewrite IH2; assumption).
        repeat match goal with |- context [herding_refine O p0 y0 (mkHerding ?a ?b ?c1 ?d1 ?e1) ?o ?r1 ?s1] =>
          change (herding_refine O p0 y0 (mkHerding a b c1 d1 e1) o r1 s1) with (herding_refine O p0 y0 (pull_herding h') o r1 s1) end.
        destruct (herding_refine O p0 y0 (pull_herding h') (ords n) r (Some g)) as [[c' g']|e] eqn:E;
          cbn; [|split; [reflexivity|intros ? HH; cbn in HH; discriminate]].
        split; [reflexivity|]. intros r' Er. injection Er as <-.
        apply herding_refine_pre in E. destruct E as [E1 E2]. split; [congruence|exact E2]. }
    destruct L as [L _]. rewrite L. rewrite bind_rmap, rmap_bind. reflexivity.
  Qed.

  Definition pull_stein (s : @stein V Q) : @stein V P :=
    mkStein (s_size s) (pull phi (s_kernel s)) (s_unique s) (s_bs s)
      (match s_reg s with
       | None => None
       | Some (lam, logpdf, lap) => Some (lam, (fun x w => logpdf (map phi x) w), (fun x => lap (map phi x)))
       end).
  Lemma stein_refine_nat s ord c : mean_nat (s_kernel s) -> nz (d_x (c_pre c)) -> wfc c ->
    stein_refine O q0 y0 s ord (mC c) = rmap (map_coreset phi) (stein_refine O p0 y0 (pull_stein s) ord c).
  Proof.
    intros HM H HW. unfold stein_refine. change (c_pre (mC c)) with (mD (c_pre c)).
    rewrite unpack2_nat. rewrite bind_rmap, rmap_bind. apply bind_ext. intros [x w] _. cbn [fst snd].
    rewrite map_map. cbn [c_idx map_coreset]. rewrite (greedy_selection_nat (s_kernel s)) by assumption.
    f_equal. f_equal. unfold stein_terms, pull_stein. cbn [s_reg].
    destruct (s_reg s) as [[[lam lp] la]|]; reflexivity.
  Qed.
  Lemma stein_reduce_nat s ord d : mean_nat (s_kernel s) -> nz (d_x d) ->
    stein_reduce O q0 y0 s ord (mD d) = rmap (map_coreset phi) (stein_reduce O p0 y0 (pull_stein s) ord d).
  Proof.
    intros HM H. unfold stein_reduce. rewrite initial_nat, bind_rmap, rmap_bind.
    cbn [pull_stein s_size]. apply bind_ext. intros c Ec. apply cs_init_pre in Ec. subst c.
    apply stein_refine_nat; try assumption. apply wfc_initial.
  Qed.

  (** ** RandomSample and RPCholesky *)
  Lemma random_nat s d :
    random_reduce O q0 y0 s (mD d) = rmap (map_coreset phi) (random_reduce O p0 y0 s d).
  Proof.
    unfold random_reduce. rewrite len_nat. rewrite rmap_bind. apply bind_ext. intros idx _. apply cs_init_nat.
  Qed.
  Definition pull_chol (s : @rpcholesky V Q) : @rpcholesky V P :=
    mkChol (ch_size s) (pull phi (ch_kernel s)) (ch_unique s) (ch_pick s).
  Lemma chol_nat s d st : (q0 = phi p0 \/ forall i p, (ch_pick s i p < d_len d)%nat) ->
    chol_reduce O q0 y0 s (mD d) st = rmap (on_fst (map_coreset phi)) (chol_reduce O p0 y0 (pull_chol s) d st).
  Proof.
    intros H. unfold chol_reduce. change (d_x (mD d)) with (map phi (d_x d)). rewrite map_length, initial_nat, bind_rmap, rmap_bind.
    cbn [pull_chol ch_size]. apply bind_ext. intros c Ec. cbn [c_idx map_coreset].
    assert (HB : forall i st, chol_body O q0 s (map phi (d_x d)) i st = chol_body O p0 (pull_chol s) (d_x d) i st).
    { intros i s0. unfold chol_body. rewrite map_length. cbn [pull_chol ch_pick ch_kernel ch_unique].
      set (p := ch_pick s i _).
      assert (EC : chol_column O q0 (ch_kernel s) (map phi (d_x d)) (c_mat s0) p =
                   chol_column O p0 (pull phi (ch_kernel s)) (d_x d) (c_mat s0) p).
      { unfold chol_column. rewrite map2_map_l. 
        assert (EP : nth p (map phi (d_x d)) q0 = phi (nth p (d_x d) p0)).
        { destruct H as [->|H]; [apply map_nth|].
          rewrite (nth_indep _ q0 (phi p0)); [apply map_nth|]. rewrite map_length. apply H. }
        rewrite EP. reflexivity. }
      rewrite EC. reflexivity. }
    erewrite fori_ext by (intros; apply HB).
    assert (ED : match st with None => map (fun a => ch_kernel s a a) (map phi (d_x d)) | Some g => g end =
                 match st with None => map (fun a => pull phi (ch_kernel s) a a) (d_x d) | Some g => g end).
    { destruct st; [reflexivity|]. now rewrite map_map. }
    rewrite ED, cs_build_nat, bind_rmap, rmap_bind. reflexivity.
  Qed.

  (** ** metrics and weights *)
  Lemma mean_scalar_nat k x y bs : mean_nat k -> wfd x -> wfd y ->
    mean_scalar O q0 y0 k (mD x) (mD y) bs = mean_scalar O p0 y0 (pull phi k) x y bs.
  Proof. intros HM H1 H2. unfold mean_scalar. now rewrite HM. Qed.
  Lemma mmd_nat k x y bs : mean_nat k -> wfd x -> wfd y ->
    mmd_compute O q0 y0 k (mD x) (mD y) bs = mmd_compute O p0 y0 (pull phi k) x y bs.
  Proof. intros HM H1 H2. unfold mmd_compute. now rewrite !mean_scalar_nat by assumption. Qed.
  Lemma jmmd_nat (k : Q -> Q -> V) (r : Y -> Y -> V) x y :
    jmmd_compute O k r (mD x) (mD y) = jmmd_compute O (pull phi k) r x y.
  Proof.
    unfold jmmd_compute, joint_mean; cbn [normalize d_y d_x d_w map_data]. destruct (d_y x), (d_y y); try reflexivity.
    now rewrite !map_length, !pairwise_nat.
  Qed.
  Lemma amcmd_nat ls (k : Q -> Q -> V) (r : Y -> Y -> V) reg x y x3 :
    amcmd_compute O ls k r reg (mD x) (mD y) (option_map (map phi) x3) =
    amcmd_compute O ls (pull phi k) r reg x y x3.
  Proof.
    unfold amcmd_compute; cbn [d_y d_x d_w map_data]. destruct (d_y x), (d_y y); try reflexivity.
    assert (E3 : match option_map (map phi) x3 with None => map phi (d_x x) | Some z => z end =
                 map phi (match x3 with None => d_x x | Some z => z end)) by (destruct x3; reflexivity).
    rewrite E3. rewrite !map_length, !pairwise_nat. reflexivity.
  Qed.
  Lemma prepare_nat k x c eps bs : mean_nat k ->
    prepare_kernel_system O q0 y0 k (mD x) (mD c) eps bs = prepare_kernel_system O p0 y0 (pull phi k) x c eps bs.
  Proof.
    intros HM. unfold prepare_kernel_system; cbn [d_y d_x map_data].
    destruct (d_y x), (d_y c); try reflexivity.
    rewrite !as_data_nat, HM, pairwise_nat, map_length by apply wf_as_data. reflexivity.
  Qed.
  Lemma mmdw_nat osqp k x c eps bs : mean_nat k ->
    mmdw_solve O q0 y0 osqp k (mD x) (mD c) eps bs = mmdw_solve O p0 y0 osqp (pull phi k) x c eps bs.
  Proof. intros HM. unfold mmdw_solve. now rewrite prepare_nat. Qed.
  Lemma sbq_nat ls k x c eps bs : mean_nat k ->
    sbq_solve O q0 y0 ls k (mD x) (mD c) eps bs = sbq_solve O p0 y0 ls (pull phi k) x c eps bs.
  Proof. intros HM. unfold sbq_solve. now rewrite prepare_nat. Qed.

  (** ** KernelThinning and CompressPlusPlus *)
  Definition pull_kt (s : kthin V Q K) : kthin V P K :=
    mkKT (kt_size s) (pull phi (kt_kernel s)) (pull phi (kt_sqrt s)) (kt_delta s) (kt_key s) (kt_log s)
      (kt_split s) (kt_uniform s) (kt_choice s) (kt_depth s) (kt_ord s).
  Lemma kt_body_nat s x i st : nz x -> kt_body O q0 s (map phi x) i st = kt_body O p0 (pull_kt s) x i st.
  Proof.
    intros H. unfold kt_body. rewrite !jget_nat by assumption.
    assert (EA : forall x1 x2 f m cm, get_alpha O q0 (kt_sqrt s) (map phi x) (phi x1) (phi x2) f m cm =
              get_alpha O p0 (kt_sqrt (pull_kt s)) x x1 x2 f m cm).
    { intros. unfold get_alpha. rewrite !map_map.
      assert (EJ : forall y, map (fun j => kt_sqrt s (jget q0 (map phi x) j) (phi y)) f =
                       map (fun j => kt_sqrt (pull_kt s) (jget p0 x j) y) f).
      { intros y. apply map_ext. intros j. now rewrite jget_nat. }
      rewrite !EJ. reflexivity. }
    rewrite EA. reflexivity.
  Qed.
  Lemma kt_half_loop_nat s x : kt_half_loop O q0 s (map phi x) = kt_half_loop O p0 (pull_kt s) x.
  Proof.
    unfold kt_half_loop. rewrite map_length. destruct x as [|a x]; [reflexivity|].
    apply fori_ext. intros. apply kt_body_nat. right. discriminate.
  Qed.
  Lemma kt_half_nat s d :
    kt_half O q0 y0 s (mD d) = rmap (fun cc => (mC (fst cc), mC (snd cc))) (kt_half O p0 y0 (pull_kt s) d).
  Proof.
    unfold kt_half. rewrite len_nat. destruct (Nat.odd (d_len d)); [reflexivity|].
    change (d_x (mD d)) with (map phi (d_x d)). rewrite kt_half_loop_nat.
    rewrite cs_build_nat, bind_rmap, rmap_bind. apply bind_ext. intros c1 _.
    rewrite cs_build_nat, bind_rmap, rmap_bind. apply bind_ext. intros c2 _. reflexivity.
  Qed.
  (** a coreset of [orig] that is empty if [orig] is *)
  Definition okc (orig : Data P Y V) (c : Coresubset P Y V) : Prop :=
    c_pre c = orig /\ (nz (d_x orig) \/ c_idx c = []).
  Lemma nz_or_nil (l : list P) : nz l \/ l = [].
  Proof. destruct l; [now right|left; right; discriminate]. Qed.
  Lemma cs_init_okc idx w d c : cs_init O p0 y0 (IData idx w) (AData d) = Ok c -> c = mkCS idx w d /\ okc d c.
  Proof.
    intros E. pose proof (cs_init_pre _ _ _ _ E). subst c. split; [reflexivity|]. split; [reflexivity|].
    destruct (nz_or_nil (d_x d)) as [H|H]; [now left|right].
    unfold cs_init in E. unfold d_len, points in E; cbn in E. unfold gather in E. rewrite H, map_length in E. cbn in E.
    destruct idx; [reflexivity|]. discriminate.
  Qed.
  Definition mcur (c : Data P Y V + Coresubset P Y V) : Data Q Y V + Coresubset Q Y V :=
    match c with inl d => inl (mD d) | inr c => inr (mC c) end.
  Definition okcur (orig : Data P Y V) (c : Data P Y V + Coresubset P Y V) : Prop :=
    match c with inl d => nz (d_x orig) \/ d_x d = [] | inr c => okc orig c end.
  Lemma remap_okc (s : kthin V P K) orig cur c1 c2 : okcur orig cur ->
    kt_half O p0 y0 s (match cur with inr c => points O p0 y0 c | inl d => d end) = Ok (c1, c2) ->
    let R := fun c => mkCS (match cur with inr p => gather 0%Z (c_idx p) (c_idx c) | inl _ => c_idx c end)
                        (c_w c) orig in okc orig (R c1) /\ okc orig (R c2).
  Proof.
    intros HC E R.
    assert (G : nz (d_x orig) \/ (c_idx c1 = [] /\ c_idx c2 = [])).
    { assert (HD : nz (d_x orig) \/ d_x (match cur with inr c => points O p0 y0 c | inl d => d end) = []).
      { destruct cur as [d|c]; cbn in HC; [exact HC|]. destruct HC as [_ [H|H]]; [now left|right].
        cbn. now rewrite H. }
      destruct HD as [H|H]; [now left|right]. revert E. unfold kt_half.
      destruct (Nat.odd _); [discriminate|]. unfold kt_half_loop. rewrite H. cbn.
      repeat match goal with |- context [if ?b then _ else _] => destruct b; [discriminate|cbn] end.
      intros E. injection E as <- <-. split; reflexivity. }
    unfold R, okc; cbn. destruct G as [G|[G1 G2]]; [tauto|].
    split; (split; [reflexivity|right]); rewrite ?G1, ?G2; destruct cur; reflexivity.
  Qed.
  Lemma kt_half_rec_nat s orig : forall m cur, okcur orig cur ->
    kt_half_rec O q0 y0 s (mcur cur) m (mD orig) = rmap (map (map_coreset phi)) (kt_half_rec O p0 y0 (pull_kt s) cur m orig).
  Proof.
    induction m; intros cur HC.
    - destruct cur as [d|c]; cbn [kt_half_rec mcur]; [|reflexivity].
      rewrite len_nat, cs_init_nat, bind_rmap, rmap_bind. reflexivity.
    - cbn [kt_half_rec].
      assert (ED : match mcur cur with inr c => points O q0 y0 c | inl d => d end =
                   mD (match cur with inr c => points O p0 y0 c | inl d => d end)).
      { destruct cur as [d|c]; cbn [mcur]; [reflexivity|]. apply points_nat'. destruct HC as [-> HC]. exact HC. }
      rewrite ED, kt_half_nat, bind_rmap, rmap_bind. apply bind_ext. intros [c1 c2] EH. cbn [fst snd].
      pose proof (remap_okc _ _ _ _ _ HC EH) as HR. cbv zeta in HR. destruct HR as [HR1 HR2].
      set (R := fun c : Coresubset P Y V => mkCS (match cur with inr p => gather 0%Z (c_idx p) (c_idx c) | inl _ => c_idx c end) (c_w c) orig).
      assert (ER : forall c, mkCS (match mcur cur with inr p => gather 0%Z (c_idx p) (c_idx (mC c)) | inl _ => c_idx (mC c) end)
                               (c_w (mC c)) (mD orig) = mC (R c)).
      { intros c. destruct cur; reflexivity. }
      rewrite !ER. change (inr (mC (R c1))) with (mcur (inr (R c1))). change (inr (mC (R c2))) with (mcur (inr (R c2))).
      rewrite IHm by exact HR1. rewrite bind_rmap, rmap_bind. apply bind_ext. intros l _.
      rewrite IHm by exact HR2. rewrite bind_rmap, rmap_bind. apply bind_ext. intros r _.
      cbn. now rewrite map_app.
  Qed.
  Lemma kt_half_rec_pre (s : kthin V P K) orig : forall m cur l, okcur orig cur ->
    kt_half_rec O p0 y0 s cur m orig = Ok l -> Forall (okc orig) l.
  Proof.
    induction m; intros cur l HC; cbn [kt_half_rec].
    - destruct cur as [d|c].
      + destruct (cs_init O p0 y0 _ _) eqn:E; [|discriminate]. cbn. intros E2. injection E2 as <-.
        apply cs_init_okc in E. constructor; [apply E|constructor].
      + intros E2. injection E2 as <-. constructor; [exact HC|constructor].
    - destruct (kt_half O p0 y0 s _) as [[c1 c2]|] eqn:EH; [|discriminate]. cbn [bind fst snd].
      pose proof (remap_okc _ _ _ _ _ HC EH) as HR. cbv zeta in HR. destruct HR as [HR1 HR2].
      destruct (kt_half_rec O p0 y0 s _ m orig) as [l1|] eqn:E1; [|discriminate]. cbn [bind].
      destruct (kt_half_rec O p0 y0 s (inr (mkCS _ (c_w c2) orig)) m orig) as [l2|] eqn:E2; [|discriminate]. cbn [bind].
      intros E. injection E as <-. apply Forall_app.
      split; [eapply IHm; [|exact E1]; exact HR1|eapply IHm; [|exact E2]; exact HR2].
  Qed.
  Lemma take_ok d n : okcur d (inl (d_take d n)).
  Proof.
    cbn. destruct (nz_or_nil (d_x d)) as [H|H]; [now left|right]. rewrite H. apply firstn_nil.
  Qed.
  Lemma kt_candidates_nat s d :
    kt_candidates O q0 y0 s (mD d) = rmap (map (map_coreset phi)) (kt_candidates O p0 y0 (pull_kt s) d).
  Proof.
    unfold kt_candidates. rewrite len_nat. cbn [pull_kt kt_size kt_depth].
    assert (ET : forall n, inl (d_take (mD d) n) = mcur (inl (d_take d n))).
    { intros n. unfold d_take, map_data, mcur; cbn. now rewrite firstn_map. }
    rewrite ET. rewrite kt_half_rec_nat by apply take_ok.
    rewrite bind_rmap, rmap_bind. apply bind_ext. intros l _.
    unfold baseline. rewrite random_nat, bind_rmap, rmap_bind. apply bind_ext. intros b _.
    cbn. now rewrite map_app.
  Qed.
  Lemma random_okc s (d : Data P Y V) c : random_reduce O p0 y0 s d = Ok c -> okc d c.
  Proof.
    unfold random_reduce. destruct (rs_choice s _ _ _ _); [|discriminate]. cbn [bind]. intros E.
    apply cs_init_okc in E. apply E.
  Qed.
  Lemma kt_candidates_pre (s : kthin V P K) d l :
    kt_candidates O p0 y0 s d = Ok l -> Forall (okc d) l.
  Proof.
    unfold kt_candidates. destruct (kt_half_rec _ _ _ _ _ _ _) eqn:E; [|discriminate]. cbn [bind].
    destruct (baseline _ _ _ _ _ _) eqn:E2; [|discriminate]. cbn [bind]. intros E3. injection E3 as <-.
    apply Forall_app. split; [eapply kt_half_rec_pre; [|exact E]; apply take_ok|].
    constructor; [|constructor]. eapply random_okc; exact E2.
  Qed.
  Lemma same_lengths_nat l : same_lengths (map (map_coreset (Y:=Y) (V:=V) phi) l) = same_lengths l.
  Proof.
    destruct l; [reflexivity|]. cbn. induction l; [reflexivity|]. cbn. now rewrite IHl.
  Qed.
  Lemma kt_choose_nat s l d : mean_nat (kt_kernel s) -> wfd d -> Forall (okc d) l ->
    kt_choose O q0 y0 s (map (map_coreset phi) l) (mD d) = kt_choose O p0 y0 (pull_kt s) l d.
  Proof.
    intros HM HD HL. unfold kt_choose. rewrite same_lengths_nat. destruct (negb (same_lengths l)); [reflexivity|].
    assert (EM : mapM (fun c => mmd_compute O q0 y0 (kt_kernel s) (as_data O (d_x (points O q0 y0 c))) (mD d) (BOne None))
                   (map (map_coreset phi) l) =
                 mapM (fun c => mmd_compute O p0 y0 (kt_kernel (pull_kt s)) (as_data O (d_x (points O p0 y0 c))) d (BOne None)) l).
    { induction HL as [|c l [EC EI] HL IH]; [reflexivity|]. cbn [map mapM].
      rewrite points_nat' by (rewrite EC; exact EI). change (d_x (mD (points O p0 y0 c))) with (map phi (d_x (points O p0 y0 c))).
      rewrite as_data_nat, mmd_nat by (try apply wf_as_data; assumption). rewrite IH. reflexivity. }
    rewrite EM. apply bind_ext. intros mm _. cbv zeta. f_equal. rewrite map_map. reflexivity.
  Qed.
  Lemma kt_refine_nat s c : mean_nat (kt_kernel s) -> nz (d_x (c_pre c)) -> wfd (c_pre c) -> wfc c ->
    kt_refine O q0 y0 s (mC c) = rmap (map_coreset phi) (kt_refine O p0 y0 (pull_kt s) c).
  Proof.
    intros HM HZ HD HW. unfold kt_refine. rewrite herding_refine_nat by assumption.
    rewrite bind_rmap, rmap_bind. reflexivity.
  Qed.
  (** without data both runs fail in the kernel mean *)
  Lemma kt_refine_empty s c : mean_nat (kt_kernel s) -> d_x (c_pre c) = [] -> wfd (c_pre c) -> wfc c ->
    kt_refine O q0 y0 s (mC c) = rmap (map_coreset phi) (kt_refine O p0 y0 (pull_kt s) c).
  Proof.
    intros HM HZ HD HW. unfold kt_refine, herding_refine. change (c_pre (mC c)) with (mD (c_pre c)).
    rewrite gramian_nat by assumption.
    unfold gramian_row_mean, compute_mean, block_convert. cbn. unfold d_len; cbn. rewrite HZ. reflexivity.
  Qed.
  Lemma kt_reduce_nat s d : mean_nat (kt_kernel s) -> wfd d ->
    kt_reduce O q0 y0 s (mD d) = rmap (map_coreset phi) (kt_reduce O p0 y0 (pull_kt s) d).
  Proof.
    intros HM HD. unfold kt_reduce. rewrite len_nat. cbn [pull_kt kt_size].
    destruct (_ <? _)%nat; [reflexivity|]. rewrite kt_candidates_nat.
    rewrite bind_rmap, rmap_bind. apply bind_ext. intros l El. apply kt_candidates_pre in El.
    rewrite kt_choose_nat by assumption. rewrite rmap_bind. apply bind_ext. intros best _.
    rewrite cs_init_nat, bind_rmap, rmap_bind. apply bind_ext. intros c Ec. apply cs_init_pre in Ec. subst c.
    destruct (nz_or_nil (d_x d)); [apply kt_refine_nat|apply kt_refine_empty]; try assumption; apply wfc_same.
  Qed.
  Lemma compress_thin_nat s d size idx : mean_nat (kt_kernel s) -> nz (d_x d) ->
    compress_thin O q0 y0 s (mD d) size idx = compress_thin O p0 y0 (pull_kt s) d size idx.
  Proof.
    intros HM HZ. unfold compress_thin. rewrite getitem_nat by assumption.
    rewrite kt_reduce_nat by (try exact HM; apply wf_getitem). rewrite bind_rmap. reflexivity.
  Qed.
  Lemma compress_rec_nat s d g : mean_nat (kt_kernel s) -> nz (d_x d) -> forall fuel idx,
    compress_rec O q0 y0 s (mD d) g fuel idx = compress_rec O p0 y0 (pull_kt s) d g fuel idx.
  Proof.
    intros HM HZ. induction fuel; intros idx; cbn [compress_rec]; [reflexivity|].
    destruct (_ =? _)%nat; [reflexivity|]. destruct (negb _); [reflexivity|].
    assert (EM : forall l, mapM (compress_rec O q0 y0 s (mD d) g fuel) l = mapM (compress_rec O p0 y0 (pull_kt s) d g fuel) l).
    { induction l; [reflexivity|]. cbn [mapM]. now rewrite IHfuel, IHl. }
    rewrite EM. apply bind_ext. intros parts _. unfold compress_half. now apply compress_thin_nat.
  Qed.
  Definition pull_compress (c : compress V Q K) : compress V P K :=
    mkCP (cp_g c) (pull_kt (cp_kt c)) (cp_log4 c).
  Lemma compress_nat c fuel d : mean_nat (kt_kernel (cp_kt c)) ->
    compress_reduce O q0 y0 c fuel (mD d) = rmap (map_coreset phi) (compress_reduce O p0 y0 (pull_compress c) fuel d).
  Proof.
    intros HM. unfold compress_reduce. rewrite len_nat. cbn [pull_compress cp_g cp_kt cp_log4 pull_kt kt_size kt_choice].
    destruct (_ <? _)%nat; [reflexivity|]. destruct (d_len d =? 0)%nat eqn:E0; [reflexivity|].
    destruct (negb _); [reflexivity|]. destruct (negb _); [reflexivity|].
    assert (HZ : nz (d_x d)). { right. intros E. unfold d_len in E0. rewrite E in E0. discriminate. }
    rewrite rmap_bind. apply bind_ext. intros cl _. rewrite compress_rec_nat by assumption.
    rewrite rmap_bind. apply bind_ext. intros cm _. rewrite compress_thin_nat by assumption.
    rewrite rmap_bind. apply bind_ext. intros ix _. apply cs_init_nat.
  Qed.

  (** ** MapReduce *)
  Lemma mapM_nat {A B} (f : A -> result B) {A' B'} (f' : A' -> result B') (ga : A -> A') (gb : B -> B') l :
    (forall a, f' (ga a) = rmap gb (f a)) -> mapM f' (map ga l) = rmap (map gb) (mapM f l).
  Proof.
    intros H. induction l; [reflexivity|]. cbn. rewrite H, bind_rmap, rmap_bind. apply bind_ext. intros b _.
    rewrite IHl, bind_rmap, rmap_bind. reflexivity.
  Qed.
  Lemma cat_data_nat l : cat_data (map (map_data (Y:=Y) (V:=V) phi) l) = mD (cat_data l).
  Proof.
    unfold cat_data, map_data; cbn. rewrite !map_map. cbn. rewrite concat_map, map_map.
    f_equal. destruct l as [|d l]; [reflexivity|]. cbn. destruct (d_y d); [|reflexivity]. reflexivity.
  Qed.
  Lemma map2_gather_nat pidx outs :
    map2 (fun ix (c : Coresubset Q Y V) => gather 0%Z ix (c_idx c)) pidx (map (map_coreset phi) outs) =
    map2 (fun ix (c : Coresubset P Y V) => gather 0%Z ix (c_idx c)) pidx outs.
  Proof. revert outs. induction pidx; destruct outs; cbn; f_equal; auto. Qed.
  Lemma reduce_coreset_nat base base' tree tree' leaf : q0 = phi p0 ->
    (forall d, base' (mD d) = rmap (map_coreset phi) (base d)) ->
    (forall x w n, tree' (map phi x) w n = tree x w n) -> forall fuel d ix,
    reduce_coreset O q0 y0 base' tree' leaf fuel (mD d) ix =
    rmap (on_fst (map_coreset phi)) (reduce_coreset O p0 y0 base tree leaf fuel d ix).
  Proof.
    intros E HB HT. induction fuel; intros d ix; cbn [reduce_coreset]; [reflexivity|].
    rewrite len_nat. destruct (_ <=? _)%nat.
    - rewrite HB, bind_rmap, rmap_bind. reflexivity.
    - unfold jit_tree. rewrite len_nat.
      assert (EZ : forall k, zero_pad O q0 y0 (mD d) k = mD (zero_pad O p0 y0 d k)).
      { intros k. unfold zero_pad, map_data; cbn. rewrite map_app, map_repeat_nat, E. reflexivity. }
      rewrite EZ. set (pd := zero_pad O p0 y0 d _).
      change (d_x (mD pd)) with (map phi (d_x pd)). change (d_w (mD pd)) with (d_w pd). rewrite HT.
      set (rows := chunks _ _).
      assert (ER : map (d_getitem O q0 y0 (mD pd)) rows = map (map_data phi) (map (d_getitem O p0 y0 pd) rows)).
      { rewrite map_map. apply map_ext. intros r. apply getitem_nat. now left. }
      rewrite ER, (mapM_nat base base' (map_data phi) (map_coreset phi)) by assumption.
      rewrite bind_rmap, rmap_bind. apply bind_ext. intros outs _. cbv zeta.
      rewrite map2_gather_nat.
      assert (EPp : map (points O q0 y0) (map (map_coreset phi) outs) = map (map_data phi) (map (points O p0 y0) outs)).
      { rewrite !map_map. apply map_ext. intros c. apply points_nat. now left. }
      rewrite EPp, cat_data_nat. apply IHfuel.
  Qed.
  Lemma map_reduce_nat base base' tree tree' leaf fuel d : q0 = phi p0 ->
    (forall d, base' (mD d) = rmap (map_coreset phi) (base d)) ->
    (forall x w n, tree' (map phi x) w n = tree x w n) ->
    map_reduce O q0 y0 base' tree' leaf fuel (mD d) = rmap (map_coreset phi) (map_reduce O p0 y0 base tree leaf fuel d).
  Proof.
    intros E HB HT. unfold map_reduce. rewrite (reduce_coreset_nat base base' tree tree') by assumption.
    rewrite bind_rmap, rmap_bind. apply bind_ext. intros [c ix] _. reflexivity.
  Qed.
End Nat.

(** ** GreedyKernelPoints (responses are array entries) *)
Section NatGKP.
  Context {V : Type} (O : FOps V) {P Q K : Type} (phi : P -> Q) (p0 : P) (q0 : Q).
  Definition pull_gkp (s : @gkp V Q K) : @gkp V P K :=
    mkGKP (gk_size s) (pull phi (gk_kernel s)) (gk_reg s) (gk_unique s) (gk_candidates s) (gk_loss s)
      (gk_solve s) (gk_split s) (gk_permutation s) (gk_key s).
  Lemma padded_gramian_nat (k : Q -> Q -> V) x : padded_gramian O k (map phi x) = padded_gramian O (pull phi k) x.
  Proof.
    unfold padded_gramian. rewrite map_length, map_map. f_equal. apply map_ext. intros a. now rewrite map_map.
  Qed.
  Lemma gkp_refine_nat s c st :
    gkp_refine O q0 s (map_coreset phi c) st = rmap (on_fst (map_coreset phi)) (gkp_refine O p0 (pull_gkp s) c st).
  Proof.
    unfold gkp_refine. cbn [c_pre c_idx map_coreset d_x d_y map_data]. rewrite map_length, rmap_bind.
    apply bind_ext. intros su _. destruct (d_y (c_pre c)) as [y|]; [|reflexivity].
    rewrite padded_gramian_nat. rewrite (cs_build_nat O phi p0 q0), bind_rmap, rmap_bind. reflexivity.
  Qed.
  Lemma gkp_reduce_nat s d st :
    gkp_reduce O q0 s (map_data phi d) st = rmap (on_fst (map_coreset phi)) (gkp_reduce O p0 (pull_gkp s) d st).
  Proof.
    unfold gkp_reduce. rewrite (initial_nat O phi p0 q0), bind_rmap, rmap_bind. apply bind_ext. intros c _.
    apply gkp_refine_nat.
  Qed.
End NatGKP.
