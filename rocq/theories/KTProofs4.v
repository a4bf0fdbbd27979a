(** * Proofs about the swap decisions of kernel halving *)
From Coq Require Import List ZArith Lia Bool Permutation Reals Lra.
From Verif Require Import Num Jax RSum JaxFacts DataModel MeanModel GreedyModel MetricModel MetricProofs MetricProofs2 CholModel CholProofs
  MapReduceModel DataMeanLemmas GreedyProofs GKPProofs2 KTModel KTSpec KTProofs.
Import ListNotations.
Open Scope nat_scope.

Lemma fmax_fin a b : fmax EROps (Fin a) (Fin b) = Fin (Rmax a b).
Proof.
  unfold fmax. cbn. destruct (nltb ROps a b) eqn:E.
  - apply Rltb_true in E. rewrite Rmax_right; [reflexivity|lra].
  - apply Rltb_false in E. rewrite Rmax_left; [reflexivity|lra].
Qed.
Lemma fleb_fin a b : fleb EROps (Fin a) (Fin b) = true <-> (a <= b)%R.
Proof.
  unfold fleb. cbn [fisnan EROps extOps eisnan negb andb fltb eltb].
  rewrite negb_true_iff. apply Rltb_false.
Qed.
Lemma Rdot_mask l i n : i <= n -> length l = n -> Rdot l (repeat 1%R i ++ repeat 0%R (n - i)) = Rsum (firstn i l).
Proof.
  intros Hi Hl. rewrite <- (firstn_skipn i l) at 1. rewrite Rdot_app by (rewrite firstn_length, repeat_length; lia).
  rewrite Rdot_zero_r, Rplus_0_r.
  assert (E : forall m, Rdot m (repeat 1%R (length m)) = Rsum m).
  { clear. induction m as [|a m IH]; [reflexivity|]. cbn [length repeat]. unfold Rdot in *. cbn [map2 Rsum]. rewrite IH. lra. }
  replace i with (length (firstn i l)) at 2 by (rewrite firstn_length; lia). apply E.
Qed.
Lemma Rsum_firstn_map {A} (f : A -> R) i l : Rsum (firstn i (map f l)) = Rsum (map f (firstn i l)).
Proof. now rewrite firstn_map. Qed.

Section Walk.
  Context {P K : Type} (p0 : P).
  Variables (s : kthin ER P K) (k : P -> P -> R) (delta : R) (u : K -> R) (xs : list P) (n : nat).
  Hypothesis Hk : kt_sqrt s = (fun a b => Fin (k a b)).
  Hypothesis Hdelta : kt_delta s = Fin delta.
  Hypothesis Hd : (0 < delta <= 2)%R.
  Hypothesis Hlog : forall r, (0 < r)%R -> kt_log s (Fin r) = Fin (ln r).
  Hypothesis Hu : forall key, kt_uniform s key = Fin (u key).
  Hypothesis Hn : length xs = 2 * n.
  Let x i := nth i xs p0.
  Let gap i := (k (x (2 * i)) (x (2 * i)) + k (x (2 * i + 1)) (x (2 * i + 1)) - 2 * k (x (2 * i)) (x (2 * i + 1)))%R.
  Hypothesis Hgap : forall i, i < n -> (0 < gap i)%R.

  Definition key_at i : K := Nat.iter i (fun key => snd (kt_split s key)) (kt_key s).
  Let b i := pair_b k (x (2 * i)) (x (2 * i + 1)).
  Let sg i := sigma_at k delta x i.
  Let a i := thresh delta (b i) (sg i).
  Let ST i := fori i (kt_body EROps p0 s xs) (start EROps s n).
  Let first i := map (fun j => pair_first (run_decision EROps p0 s xs n j) j) (seq 0 i).
  Let al i := imbalance k (firstn (2 * i) xs) (map x (first i)) (x (2 * i)) (x (2 * i + 1)).

  Lemma b_pos i : i < n -> (0 < b i)%R.
  Proof. intros H. unfold b, pair_b. apply sqrt_lt_R0. now apply Hgap. Qed.
  Lemma a_pos i : i < n -> (0 < a i)%R.
  Proof.
    intros H. pose proof (b_pos i H). unfold a, thresh. eapply Rlt_le_trans; [|apply Rmax_r]. nra.
  Qed.
  Lemma ln_nonneg : (0 <= 2 * ln (2 / delta))%R.
  Proof.
    assert (A : (1 <= 2 / delta)%R).
    { apply (Rmult_le_reg_r delta); [lra|]. unfold Rdiv. rewrite Rmult_assoc, Rinv_l by lra. lra. }
    destruct (Req_dec (2 / delta) 1) as [E|E]; [rewrite E, ln_1; lra|].
    assert (0 < ln (2 / delta))%R; [|lra]. rewrite <- ln_1. apply ln_increasing; lra.
  Qed.

  Lemma dist_val i : i < n -> kernel_distance EROps (kt_sqrt s) (x (2 * i)) (x (2 * i + 1)) = Fin (b i).
  Proof.
    intros H. unfold kernel_distance. rewrite Hk. unfold b, pair_b. rewrite <- fsqrt_fin; [reflexivity|].
    specialize (Hgap i H). unfold gap in Hgap. lra.
  Qed.
  Lemma a_sigma_val i : i < n ->
    a_and_sigma EROps (kt_log s) (kt_delta s) (Fin (b i)) (Fin (sg i)) = (Fin (a i), Fin (sg (S i))).
  Proof.
    intros H. unfold a_and_sigma, sqr. rewrite Hdelta.
    change (fofZ EROps 2) with (Fin 2%R : ER).
    rewrite fdiv_fin by lra. rewrite Hlog by (apply Rdiv_lt_0_compat; lra).
    change (fmul EROps (Fin 2%R) (Fin (ln (2 / delta)))) with (Fin (2 * ln (2 / delta))%R : ER).
    rewrite (fsqrt_fin _ ln_nonneg).
    change (fmul EROps (fmul EROps (Fin (b i)) (Fin (sg i))) (Fin (sqrt (2 * ln (2 / delta)))))
      with (Fin (b i * sg i * sqrt (2 * ln (2 / delta)))%R : ER).
    change (fmul EROps (Fin (b i)) (Fin (b i))) with (Fin (b i * b i)%R : ER).
    rewrite fmax_fin. change (Rmax (b i * sg i * sqrt (2 * ln (2 / delta))) (b i * b i)) with (a i).
    f_equal.
    change (fmul EROps (Fin (a i)) (Fin (a i))) with (Fin (a i * a i)%R : ER).
    change (fmul EROps (fsub EROps (Fin (b i * b i)%R) (fmul EROps (Fin 2%R) (Fin (a i)))) (fmul EROps (Fin (sg i)) (Fin (sg i))))
      with (Fin ((b i * b i - 2 * a i) * (sg i * sg i))%R : ER).
    pose proof (a_pos i H) as Ha. rewrite fdiv_fin by nra.
    change (fmul EROps (Fin (b i * b i)%R) (fadd EROps (f1 EROps) (Fin ((b i * b i - 2 * a i) * (sg i * sg i) / (a i * a i))%R)))
      with (Fin (b i * b i * (1 + (b i * b i - 2 * a i) * (sg i * sg i) / (a i * a i)))%R : ER).
    change (f0 EROps) with (Fin 0%R : ER). rewrite fmax_fin.
    change (fadd EROps (fmul EROps (Fin (sg i)) (Fin (sg i))) (Fin ?r)) with (Fin (sg i * sg i + r)%R : ER).
    cbn [fadd fmul EROps extOps eadd emul nadd nmul ROps]. rewrite fsqrt_fin.
    - reflexivity.
    - pose proof (Rmax_r (b i * b i * (1 + (b i * b i - 2 * a i) * (sg i * sg i) / (a i * a i))) 0).
      pose proof (Rle_0_sqr (sg i)). unfold Rsqr in *. lra.
  Qed.

  Lemma alpha_val i : i < n ->
    get_alpha EROps p0 (kt_sqrt s) xs (x (2 * i)) (x (2 * i + 1))
      (map Z.of_nat (first i) ++ repeat 0%Z (n - i))
      (map Fin (repeat 1%R (2 * i) ++ repeat 0%R (2 * n - 2 * i)))
      (map Fin (repeat 1%R i ++ repeat 0%R (n - i))) = Fin (al i).
  Proof.
    intros H. unfold get_alpha. rewrite Hk.
    assert (F : forall ys, map2 (fsub EROps) (map (fun y => Fin (k y (x (2 * i)))) ys) (map (fun y => Fin (k y (x (2 * i + 1)))) ys)
                = map Fin (map (fun y => k y (x (2 * i)) - k y (x (2 * i + 1)))%R ys)).
    { intros ys. rewrite map2_map_same, map_map. reflexivity. }
    rewrite !F, !fdot_fin. change (fofZ EROps (-2)) with (Fin (-2)%R : ER).
    rewrite Rdot_mask by (rewrite ?map_length; lia).
    assert (LF : length (first i) = i) by (unfold first; now rewrite map_length, seq_length).
    rewrite Rdot_mask by (rewrite ?map_length, ?app_length, ?map_length, ?repeat_length; lia).
    rewrite !Rsum_firstn_map, firstn_map.
    replace (firstn i (map Z.of_nat (first i) ++ repeat 0%Z (n - i))) with (map Z.of_nat (first i)).
    2: { rewrite firstn_app, map_length, LF, Nat.sub_diag, firstn_O, app_nil_r.
         rewrite firstn_all2; [reflexivity|]. rewrite map_length. lia. }
    replace (map (fun j => jget p0 xs j) (map Z.of_nat (first i))) with (map x (first i)).
    2: { rewrite map_map. apply map_ext_in. intros j Hj. unfold x. rewrite jget_nat; [reflexivity|].
         unfold first in Hj. apply in_map_iff in Hj as [t [<- Ht]]. apply in_seq in Ht. unfold pair_first.
         destruct (run_decision _ _ _ _ _ _); lia. }
    unfold al, imbalance. cbn [fadd fmul EROps extOps eadd emul nadd nmul ROps]. f_equal. lra.
  Qed.

  Lemma mask_step {A} (z o : A) i N : i < N ->
    jset (repeat o i ++ repeat z (N - i)) (Z.of_nat i) o = repeat o (S i) ++ repeat z (N - S i).
  Proof.
    clear. intros H. rewrite jset_in_range by (rewrite app_length, !repeat_length; lia).
    rewrite Nat2Z.id. replace i with (length (repeat o i)) at 1 by apply repeat_length.
    rewrite upd_app_repeat by lia. rewrite <- repeat_cons.
    change (o :: repeat o i) with (repeat o (S i)). f_equal. f_equal. lia.
  Qed.

  Lemma walk_state i : i <= n ->
    h_sigma (ST i) = Fin (sg i) /\
    h_mask (ST i) = map Fin (repeat 1%R (2 * i) ++ repeat 0%R (2 * n - 2 * i)) /\
    h_cmask (ST i) = map Fin (repeat 1%R i ++ repeat 0%R (n - i)) /\
    h_key (ST i) = key_at i.
  Proof.
    induction i as [|i IH]; intros H.
    - unfold ST. cbn [fori]. change (fori 0 (kt_body EROps p0 s xs) (start EROps s n)) with (start EROps s n).
      unfold start. cbn [h_sigma h_mask h_cmask h_key]. replace (2 * n - 2 * 0) with (2 * n) by lia. replace (n - 0) with n by lia. change (2 * 0) with 0. cbn [repeat app].
      rewrite !map_Fin_repeat. auto.
    - destruct IH as [I1 [I2 [I3 I4]]]; [lia|].
      assert (I5 := proj1 (half_indices EROps p0 s xs n i ltac:(lia))). fold (ST i) in I5. fold (first i) in I5.
      unfold ST. rewrite fori_S. fold (ST i). unfold kt_body. cbv zeta.
      rewrite I1, I2, I3, I4, I5.
      replace (2 * Z.of_nat i + 1)%Z with (Z.of_nat (2 * i + 1)) by lia.
      replace (2 * Z.of_nat i)%Z with (Z.of_nat (2 * i)) by lia.
      rewrite !(jget_nat p0 xs) by lia. fold (x (2 * i)). fold (x (2 * i + 1)).
      rewrite dist_val, a_sigma_val by lia. rewrite alpha_val by lia.
      unfold should_swap. destruct (kt_split s (key_at i)) as [k1 k2] eqn:EK.
      assert (KS : key_at (S i) = k2) by (change (key_at (S i)) with (snd (kt_split s (key_at i))); rewrite EK; reflexivity).
      assert (M1 : jset (jset (map Fin (repeat 1%R (2 * i) ++ repeat 0%R (2 * n - 2 * i))) (Z.of_nat (2 * i)) (f1 EROps))
                     (Z.of_nat (2 * i + 1)) (f1 EROps) = map Fin (repeat 1%R (2 * S i) ++ repeat 0%R (2 * n - 2 * S i))).
      { rewrite !map_app, !map_Fin_repeat. change (f1 EROps) with (Fin 1%R : ER).
        rewrite mask_step by lia. replace (2 * i + 1) with (S (2 * i)) by lia. rewrite mask_step by lia.
        replace (2 * S i) with (S (S (2 * i))) by lia. reflexivity. }
      assert (M2 : jset (map Fin (repeat 1%R i ++ repeat 0%R (n - i))) (Z.of_nat i) (f1 EROps)
                   = map Fin (repeat 1%R (S i) ++ repeat 0%R (n - S i))).
      { rewrite !map_app, !map_Fin_repeat. change (f1 EROps) with (Fin 1%R : ER). rewrite mask_step by lia. reflexivity. }
      rewrite M1, M2.
      destruct (fleb EROps _ _); cbn [h_sigma h_mask h_cmask h_key]; auto.
  Qed.

  (** the decision is the one of the paper *)
  Lemma walk_decision i : i < n ->
    (run_decision EROps p0 s xs n i = true <-> (u (fst (kt_split s (key_at i))) <= 1 / 2 * (1 - al i / a i))%R).
  Proof.
    intros H. destruct (walk_state i ltac:(lia)) as [I1 [I2 [I3 I4]]].
    assert (I5 := proj1 (half_indices EROps p0 s xs n i ltac:(lia))). fold (ST i) in I5. fold (first i) in I5.
    unfold run_decision. fold (ST i). unfold decision. cbv zeta. rewrite I1, I2, I3, I4, I5.
    replace (2 * Z.of_nat i + 1)%Z with (Z.of_nat (2 * i + 1)) by lia.
    replace (2 * Z.of_nat i)%Z with (Z.of_nat (2 * i)) by lia.
    rewrite !(jget_nat p0 xs) by lia. fold (x (2 * i)). fold (x (2 * i + 1)).
    rewrite dist_val, a_sigma_val by lia. rewrite alpha_val by lia. cbn [fst].
    unfold should_swap. destruct (kt_split s (key_at i)) as [k1 k2]. cbn [fst]. rewrite Hu.
    change (fofZ EROps 2) with (Fin 2%R : ER). change (f1 EROps) with (Fin 1%R : ER).
    pose proof (a_pos i H). rewrite !fdiv_fin by lra.
    cbn [fsub fmul EROps extOps esub emul nsub nmul ROps]. apply fleb_fin.
  Qed.
End Walk.

(** ** A pair of equal points switches the randomness off *)
Section Frozen.
  Context {P K : Type} (p0 : P).
  Variables (s : kthin ER P K) (k : P -> P -> R) (delta lg : R) (xs : list P) (n : nat).
  Definition nf (v : ER) : Prop := v = NaN \/ exists r, v = Fin r.
  Lemma fmax_nf a b : nf a -> nf b -> nf (fmax EROps a b).
  Proof.
    intros [->|[r ->]] [->|[q ->]]; try (left; reflexivity). right. rewrite fmax_fin. eauto.
  Qed.
  Lemma fsqrt_nf a : nf a -> nf (fsqrt EROps a).
  Proof. intros [->|[r ->]]; [left; reflexivity|]. cbn. destruct (nltb ROps r 0%R); [now left|right; eauto]. Qed.
  Lemma fmul_nf a b : nf a -> nf b -> nf (fmul EROps a b).
  Proof. intros [->|[r ->]] [->|[q ->]]; unfold nf; cbn; eauto. Qed.
  Lemma fadd_nf a b : nf a -> nf b -> nf (fadd EROps a b).
  Proof. intros [->|[r ->]] [->|[q ->]]; unfold nf; cbn; eauto. Qed.
  Lemma fsub_nf a b : nf a -> nf b -> nf (fsub EROps a b).
  Proof. intros [->|[r ->]] [->|[q ->]]; unfold nf; cbn; eauto. Qed.
  Lemma fin_nf r : nf (Fin r). Proof. right; eauto. Qed.
  Hint Resolve fmax_nf fsqrt_nf fmul_nf fadd_nf fsub_nf fin_nf : nf.

  Hypothesis Hk : kt_sqrt s = (fun a b => Fin (k a b)).
  Hypothesis Hlog : kt_log s (fdiv EROps (fofZ EROps 2) (kt_delta s)) = Fin lg.
  Hypothesis Hn : length xs = 2 * n.

  Lemma sigma_nf sg x y : nf sg -> nf (snd (a_and_sigma EROps (kt_log s) (kt_delta s) (kernel_distance EROps (kt_sqrt s) x y) sg)).
  Proof.
    intros Hs.
    assert (HB : nf (kernel_distance EROps (kt_sqrt s) x y)).
    { unfold kernel_distance. rewrite Hk. apply fsqrt_nf, fin_nf. }
    destruct HB as [->|[b ->]].
    { left. unfold a_and_sigma, sqr, fmax. cbn. destruct sg; reflexivity. }
    unfold a_and_sigma. rewrite Hlog. cbv zeta. cbn [snd].
    apply fsqrt_nf, fadd_nf; [now apply fmul_nf|]. apply fmax_nf; [|apply fin_nf]. apply fmul_nf; [apply fmul_nf; apply fin_nf|].
    apply fadd_nf; [apply fin_nf|].
    set (c := fsqrt EROps (fmul EROps (fofZ EROps 2) (Fin lg))).
    assert (Hc : nf c) by (apply fsqrt_nf, fmul_nf; apply fin_nf).
    destruct Hs as [->|[r ->]].
    { left. unfold sqr. cbn. destruct c; reflexivity. }
    destruct Hc as [Ec|[r' Ec]]; rewrite Ec.
    { left. reflexivity. }
    unfold sqr. cbn [fmul EROps extOps emul nmul ROps]. rewrite fmax_fin. set (a := Rmax _ _).
    cbn [fmul fsub fofZ EROps extOps emul esub nmul nsub ROps]. set (num := (_ * (r * r))%R).
    destruct (Req_dec (a * a) 0) as [E|E].
    - rewrite E. assert (Ea : a = 0%R) by nra.
      assert (Eb : (b * b = 0)%R).
      { assert (b * b <= a)%R by apply Rmax_r. pose proof (Rle_0_sqr b). unfold Rsqr in *. lra. }
      assert (En : num = 0%R) by (unfold num; rewrite Eb, Ea; cbn; ring).
      left. rewrite En. cbn. rewrite nsign_R. destruct (Rlt_dec 0 0); [lra|]. reflexivity.
    - right. rewrite fdiv_fin by assumption. eauto.
  Qed.

  Let ST i := fori i (kt_body EROps p0 s xs) (start EROps s n).
  Lemma body_sigma i st : h_sigma (kt_body EROps p0 s xs i st)
    = snd (a_and_sigma EROps (kt_log s) (kt_delta s)
            (kernel_distance EROps (kt_sqrt s) (jget p0 xs (2 * Z.of_nat i)) (jget p0 xs (2 * Z.of_nat i + 1))) (h_sigma st)).
  Proof.
    unfold kt_body. cbv zeta. destruct (a_and_sigma _ _ _ _ _) as [a sg]. destruct (should_swap _ _ _ _ _) as [sw key].
    destruct sw; reflexivity.
  Qed.
  Lemma run_nf i : nf (h_sigma (ST i)).
  Proof.
    induction i as [|i IH]; [apply fin_nf|]. unfold ST. rewrite fori_S. fold (ST i). rewrite body_sigma. now apply sigma_nf.
  Qed.
  Lemma nan_sigma b : a_and_sigma EROps (kt_log s) (kt_delta s) b NaN = (NaN, NaN).
  Proof. unfold a_and_sigma, sqr, fmax. cbn. destruct b; reflexivity. Qed.
  Lemma equal_sigma x sg : nf sg ->
    snd (a_and_sigma EROps (kt_log s) (kt_delta s) (kernel_distance EROps (kt_sqrt s) x x) sg) = NaN /\
    (sg = NaN \/ fst (a_and_sigma EROps (kt_log s) (kt_delta s) (kernel_distance EROps (kt_sqrt s) x x) sg) = NaN \/
     fst (a_and_sigma EROps (kt_log s) (kt_delta s) (kernel_distance EROps (kt_sqrt s) x x) sg) = Fin 0%R).
  Proof.
    intros [->|[r ->]]; [rewrite nan_sigma; auto|].
    assert (EB : kernel_distance EROps (kt_sqrt s) x x = Fin 0%R).
    { unfold kernel_distance. rewrite Hk. cbn [fadd fsub fmul fofZ EROps extOps eadd esub emul nadd nsub nmul ROps nofZ].
      replace (k x x + k x x - _)%R with 0%R by (cbn; lra).
      rewrite fsqrt_fin by lra. now rewrite sqrt_0. }
    rewrite EB. unfold a_and_sigma. rewrite Hlog. cbv zeta. cbn [fst snd].
    set (c := fsqrt EROps (fmul EROps (fofZ EROps 2) (Fin lg))).
    assert (Hc : nf c) by (apply fsqrt_nf, fmul_nf; apply fin_nf).
    destruct Hc as [Ec|[r' Ec]]; rewrite Ec.
    { split; [|right; left]; reflexivity. }
    unfold sqr. cbn [fmul EROps extOps emul nmul ROps]. rewrite !Rmult_0_l, fmax_fin, Rmax_left by lra. split; [|auto].
    cbn [fmul fsub fofZ fadd f1 EROps extOps emul esub eadd nmul nsub nadd n1 ROps].
    replace ((0 - _) * (r * r))%R with 0%R by (cbn; ring). rewrite Rmult_0_r.
    cbn [fdiv EROps extOps ediv]. rewrite nsign_R. destruct (Rlt_dec 0 0); [lra|]. reflexivity.
  Qed.

  Lemma jset_fin l i v : exists l', jset (map Fin l) i (Fin v) = map Fin l' :> list ER.
  Proof.
    clear. unfold jset. rewrite map_length. destruct (_ && _); [|eauto].
    exists (upd (Z.to_nat (wrap (length l) i)) v l). now rewrite map_upd.
  Qed.
  Lemma masks_fin i : exists m1 m2, h_mask (ST i) = map Fin m1 /\ h_cmask (ST i) = map Fin m2.
  Proof.
    induction i as [|i [m1 [m2 [E1 E2]]]].
    - exists (repeat 0%R (2 * n)), (repeat 0%R n). rewrite !map_Fin_repeat. split; reflexivity.
    - unfold ST. rewrite fori_S. fold (ST i). unfold kt_body. cbv zeta. rewrite E1, E2.
      destruct (a_and_sigma _ _ _ _ _) as [a sg]. destruct (should_swap _ _ _ _ _) as [sw key].
      change (f1 EROps) with (Fin 1%R : ER).
      destruct (jset_fin m1 (2 * Z.of_nat i) 1) as [l1 ->]. destruct (jset_fin l1 (2 * Z.of_nat i + 1) 1) as [l2 ->].
      destruct (jset_fin m2 (Z.of_nat i) 1) as [l3 ->]. exists l2, l3. destruct sw; split; reflexivity.
  Qed.
  Lemma frozen i j : i < n -> nth (2 * i) xs p0 = nth (2 * i + 1) xs p0 -> i <= j < n ->
    run_decision EROps p0 s xs n j = false.
  Proof.
    intros Hi He Hj.
    assert (NS : forall t, h_sigma (ST (S i + t)) = NaN).
    { induction t as [|t IH].
      - rewrite Nat.add_0_r. unfold ST. rewrite fori_S. fold (ST i). rewrite body_sigma.
        replace (2 * Z.of_nat i + 1)%Z with (Z.of_nat (2 * i + 1)) by lia.
        replace (2 * Z.of_nat i)%Z with (Z.of_nat (2 * i)) by lia.
        rewrite !(jget_nat p0 xs) by lia. rewrite <- He. apply equal_sigma. apply run_nf.
      - rewrite Nat.add_succ_r. unfold ST. rewrite fori_S. fold (ST (S i + t)). rewrite body_sigma, IH, nan_sigma. reflexivity. }
    assert (SW : forall a alpha key, fdiv EROps alpha a = NaN -> fst (should_swap EROps s a alpha key) = false).
    { intros a alpha key E. unfold should_swap. destruct (kt_split s key) as [k1 k2]. cbn [fst]. rewrite E.
      change (fsub EROps (f1 EROps) NaN) with (NaN : ER). replace (fmul EROps _ NaN) with (NaN : ER) by (destruct (fdiv EROps (f1 EROps) (fofZ EROps 2)); reflexivity). unfold fleb. destruct (kt_uniform s k1); reflexivity. }
    assert (DN : forall v, fdiv EROps v NaN = NaN) by (intros []; reflexivity).
    unfold run_decision, decision. cbv zeta. fold (ST j). apply SW.
    destruct (Nat.eq_dec i j) as [<-|Hne].
    - replace (2 * Z.of_nat i + 1)%Z with (Z.of_nat (2 * i + 1)) by lia.
      replace (2 * Z.of_nat i)%Z with (Z.of_nat (2 * i)) by lia.
      rewrite !(jget_nat p0 xs) by lia. rewrite <- He.
      destruct (equal_sigma (nth (2 * i) xs p0) (h_sigma (ST i)) (run_nf i)) as [_ [E|[E|E]]].
      + rewrite E, nan_sigma. cbn [fst]. apply DN.
      + rewrite E. apply DN.
      + rewrite E. clear SW.
        destruct (masks_fin i) as [m1 [m2 [E1 E2]]]. rewrite E1, E2.
        assert (Z : forall ys m, fdot EROps (map2 (fsub EROps) (map (fun y => kt_sqrt s y (nth (2 * i) xs p0)) ys)
                    (map (fun y => kt_sqrt s y (nth (2 * i) xs p0)) ys)) (map Fin m) = Fin 0%R).
        { intros ys m. rewrite map2_map_same, Hk.
          rewrite (map_ext _ (fun y => Fin (k y (nth (2 * i) xs p0) - k y (nth (2 * i) xs p0))%R)) by reflexivity.
          rewrite <- (map_map (fun y => (k y (nth (2 * i) xs p0) - k y (nth (2 * i) xs p0))%R) Fin), fdot_fin. f_equal.
          rewrite Rdot_comm. rewrite (map_ext _ (fun _ : P => 0%R)) by (intros; lra).
          replace (map (fun _ : P => 0%R) ys) with (repeat 0%R (length ys)) by (clear; induction ys; cbn; congruence).
          apply Rdot_zero_r. }
        unfold get_alpha. rewrite !Z. cbn [fadd fmul fofZ EROps extOps eadd emul nadd nmul ROps].
        rewrite Rmult_0_r, Rplus_0_r. cbn [fdiv EROps extOps ediv]. rewrite nsign_R. destruct (Rlt_dec 0 0); [lra|]. reflexivity.
    - specialize (NS (j - S i)). replace (S i + (j - S i)) with j in NS by lia. rewrite NS, nan_sigma. cbn [fst]. apply DN.
  Qed.
End Frozen.
