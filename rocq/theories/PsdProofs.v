(** * Positive semi-definite kernels: closure properties *)
From Coq Require Import List ZArith Reals Lia Lra.
From Coquelicot Require Import Coquelicot.
From Verif Require Import RSum CholSpec MetricSpec MetricProofs CholProofs2.
Import ListNotations.
Open Scope R_scope.

Section Bilinear.
  Context {P : Type}.
  Implicit Types k : P -> P -> R.
  Lemma bil_ext k k' ms ns : (forall p q, k p q = k' p q) -> bil k ms ns = bil k' ms ns.
  Proof. intro H. rewrite !bil_lin. apply lin_ext. intro. now apply lin_ext. Qed.
  Lemma lin_ext_in (ms : list (P * R)) f g : (forall m, In m ms -> f (fst m) = g (fst m)) -> lin ms f = lin ms g.
  Proof. intro H. unfold lin. apply Rsum_map_ext. intros m Hm. now rewrite H. Qed.
  Lemma bil_ext_in k k' ms ns : (forall p q, In p ms -> In q ns -> k (fst p) (fst q) = k' (fst p) (fst q)) -> bil k ms ns = bil k' ms ns.
  Proof. intro H. rewrite !bil_lin. apply lin_ext_in. intros. apply lin_ext_in. auto. Qed.
  Lemma bil_addk k k' ms ns : bil (fun p q => k p q + k' p q) ms ns = bil k ms ns + bil k' ms ns.
  Proof. rewrite !bil_lin, <- lin_add. apply lin_ext. intro. apply lin_add. Qed.
  Lemma bil_scalk c k ms ns : bil (fun p q => c * k p q) ms ns = c * bil k ms ns.
  Proof. rewrite !bil_lin, <- lin_mul. apply lin_ext. intro. apply lin_mul. Qed.
  Lemma lin_mul_r ms (f : P -> R) c : lin ms (fun p => f p * c) = lin ms f * c.
  Proof. rewrite (lin_ext _ _ (fun p => c * f p)) by (intros; ring). rewrite lin_mul. ring. Qed.
  Lemma bil_rank1 (f g : P -> R) ms ns : bil (fun p q => f p * g q) ms ns = lin ms f * lin ns g.
  Proof. rewrite bil_lin. rewrite <- lin_mul_r. apply lin_ext. intro. now rewrite lin_mul. Qed.
  (** multiply the weights by a function of the point *)
  Definition reweight (f : P -> R) (ms : list (P * R)) : list (P * R) := map (fun m => (fst m, f (fst m) * snd m)) ms.
  Lemma lin_reweight f ms g : lin (reweight f ms) g = lin ms (fun p => f p * g p).
  Proof. unfold lin, reweight. rewrite map_map. apply Rsum_map_ext. intros. cbn. ring. Qed.
  Lemma bil_reweight f g k ms ns : bil (fun p q => f p * g q * k p q) ms ns = bil k (reweight f ms) (reweight g ns).
  Proof.
    rewrite !bil_lin, lin_reweight. apply lin_ext. intro p. rewrite lin_reweight, <- lin_mul. apply lin_ext. intro. ring.
  Qed.

  Lemma psd_ext k k' : (forall p q, k p q = k' p q) -> psd k -> psd k'.
  Proof. intros E [S H]. split; [intros; now rewrite <- !E|]. intro. rewrite <- (bil_ext k k'); auto. Qed.
  Lemma psd_add k k' : psd k -> psd k' -> psd (fun p q => k p q + k' p q).
  Proof.
    intros [S H] [S' H']. split; [intros; now rewrite S, S'|]. intro ms. rewrite bil_addk.
    specialize (H ms). specialize (H' ms). lra.
  Qed.
  Lemma psd_scal c k : 0 <= c -> psd k -> psd (fun p q => c * k p q).
  Proof. intros C [S H]. split; [intros; now rewrite S|]. intro ms. rewrite bil_scalk. now apply Rmult_le_pos. Qed.
  Lemma psd_rank1 (f : P -> R) : psd (fun p q => f p * f q).
  Proof. split; [intros; ring|]. intro ms. rewrite bil_rank1. apply Rle_0_sqr. Qed.
  Lemma psd_const c : 0 <= c -> psd (fun _ _ : P => c).
  Proof. intro C. apply psd_ext with (fun p q => c * (1 * 1)); [intros; ring|]. apply psd_scal; auto. apply (psd_rank1 (fun _ => 1)). Qed.
  Lemma psd_reweight f k : psd k -> psd (fun p q => f p * f q * k p q).
  Proof. intros [S H]. split; [intros; rewrite S; ring|]. intro ms. rewrite bil_reweight. apply H. Qed.
  Lemma psd_sum (ks : list (P -> P -> R)) : (forall k, In k ks -> psd k) -> psd (fun p q => Rsum (map (fun k => k p q) ks)).
  Proof.
    induction ks as [|k ks IH]; intro H; cbn.
    - apply psd_const. lra.
    - apply psd_add; [apply H; now left|]. apply IH. intros. apply H. now right.
  Qed.

  (** every finite restriction of a PSD kernel is a sum of rank-one kernels *)
  Lemma psd_decompose (l : list P) : forall k, psd k -> exists (fs : list (P -> R)) r,
    psd r /\ (forall p q, k p q = Rsum (map (fun f => f p * f q) fs) + r p q) /\
    (forall p q, In p l -> r p q = 0) /\ (forall p, (forall q, k p q = 0) -> forall q, r p q = 0).
  Proof.
    induction l as [|a l IH]; intros k K.
    - exists [], k. repeat split; auto; try apply K; cbn; intros; try ring. destruct H.
    - destruct (Rlt_dec 0 (k a a)) as [G|G].
      + destruct (IH (eliminate k a) (eliminate_psd k a K G)) as (fs & r & R1 & R2 & R3 & R4).
        exists ((fun p => k p a / sqrt (k a a)) :: fs), r. split; [auto|]. split; [|split].
        * intros p q. cbn [map Rsum]. rewrite Rplus_assoc, <- R2. unfold eliminate.
          assert (0 < sqrt (k a a)) by (now apply sqrt_lt_R0). assert (E := sqrt_sqrt (k a a) ltac:(lra)).
          rewrite <- E at 3. field. lra.
        * intros p q [<-|H]; [|now apply R3]. apply R4. intro. apply eliminate_row; [apply K|lra].
        * intros p H q. apply R4. intro. now apply eliminate_zero_row.
      + assert (Z : k a a = 0) by (pose proof (psd_diag k a K); lra).
        destruct (IH k K) as (fs & r & R1 & R2 & R3 & R4). exists fs, r. split; [auto|]. split; [auto|]. split; [|auto].
        intros p q [<-|H]; [|now apply R3]. apply R4. intro. now apply psd_zero.
  Qed.

  Lemma lin_sum {A} (ms : list (P * R)) (F : A -> P -> R) l :
    lin ms (fun p => Rsum (map (fun a => F a p) l)) = Rsum (map (fun a => lin ms (F a)) l).
  Proof.
    induction l as [|a l IH]; cbn.
    - unfold lin. apply Rsum_zero. intros b Hb. apply in_map_iff in Hb as (m & <- & _). apply Rmult_0_r.
    - rewrite lin_add, IH. reflexivity.
  Qed.
  (** Schur's product theorem *)
  Lemma psd_mul k k' : psd k -> psd k' -> psd (fun p q => k p q * k' p q).
  Proof.
    intros K K'. split; [intros a b; now rewrite (proj1 K), (proj1 K')|]. intro ms.
    destruct (psd_decompose (map fst ms) k K) as (fs & r & R1 & R2 & R3 & _).
    rewrite (bil_ext_in _ (fun p q => Rsum (map (fun f => f p * f q * k' p q) fs))).
    - rewrite bil_lin.
      rewrite (lin_ext _ _ (fun p => Rsum (map (fun f => lin ms (fun q => f p * f q * k' p q)) fs))).
      2:{ intro p. apply (lin_sum ms (fun f q => f p * f q * k' p q)). }
      rewrite (lin_sum ms (fun f p => lin ms (fun q => f p * f q * k' p q))).
      apply Rsum_nonneg. intros a Ha. apply in_map_iff in Ha as (f & <- & _).
      apply (psd_reweight f k' K').
    - intros p q Hp Hq. rewrite R2, R3 by (now apply in_map). rewrite Rplus_0_r, Rmult_comm, <- Rsum_map_scal.
      apply Rsum_map_ext. intros. ring.
  Qed.
  Lemma psd_pow k n : psd k -> psd (fun p q => k p q ^ n).
  Proof. intro K. induction n; cbn; [apply psd_const; lra|now apply psd_mul]. Qed.

  (** limits *)
  Lemma lim_lin (ms : list (P * R)) (f : nat -> P -> R) (g : P -> R) : (forall p, is_lim_seq (fun n => f n p) (g p)) ->
    is_lim_seq (fun n => lin ms (f n)) (lin ms g).
  Proof.
    intro H. induction ms as [|[p c] ms IH]; [apply is_lim_seq_const|].
    apply is_lim_seq_ext with (fun n => c * f n p + lin ms (f n)); [intro; reflexivity|].
    change (lin ((p, c) :: ms) g) with (c * g p + lin ms g).
    apply is_lim_seq_plus'; auto. apply (is_lim_seq_scal_l (fun n => f n p) c (g p)). apply H.
  Qed.
  Lemma lim_bil ms ns (f : nat -> P -> P -> R) k : (forall p q, is_lim_seq (fun n => f n p q) (k p q)) ->
    is_lim_seq (fun n => bil (f n) ms ns) (bil k ms ns).
  Proof. intro H. apply (lim_lin ms (fun n p => lin ns (f n p)) (fun p => lin ns (k p))). intro p. apply (lim_lin ns (fun n => f n p) (k p)). intro. apply H. Qed.
  Lemma psd_lim (f : nat -> P -> P -> R) k : (forall n, psd (f n)) -> (forall p q, is_lim_seq (fun n => f n p q) (k p q)) -> psd k.
  Proof.
    intros F L. split.
    - intros a b. assert (E : Finite (k a b) = Finite (k b a)); [|now inversion E].
      rewrite <- (is_lim_seq_unique _ _ (L a b)), <- (is_lim_seq_unique _ _ (L b a)).
      apply Lim_seq_ext. intro. apply F.
    - intro ms. apply (is_lim_seq_le (fun _ => 0) (fun n => bil (f n) ms ms) 0 (bil k ms ms)).
      + intro. apply F. + apply is_lim_seq_const. + now apply lim_bil.
  Qed.

  (** exponentials *)
  Lemma is_lim_exp x : is_lim_seq (fun n => Rsum (map (fun i => x ^ i / INR (fact i)) (seq 0 n))) (exp x).
  Proof.
    assert (H := is_exp_Reals x). unfold is_pseries, is_series in H.
    apply is_lim_seq_incr_1. apply is_lim_seq_ext with (2 := H). intro n. clear H.
    induction n.
    - rewrite sum_O. cbn. unfold scal, mult; cbn. unfold mult; cbn. field.
    - rewrite sum_Sn, IHn. replace (seq 0 (S (S n))) with (seq 0 (S n) ++ [S n]) by (symmetry; apply (seq_S (S n) 0)).
      rewrite map_app, Rsum_app. unfold plus; cbn [AbelianGroup.plus]. f_equal. cbn [map Rsum].
      rewrite pow_n_pow. unfold Hierarchy.scal; cbn [ModuleSpace.mixin]. unfold mult; cbn.
      change (0 + S n)%nat with (S n). unfold Rdiv. rewrite Rplus_0_r. reflexivity.
  Qed.
  Lemma psd_exp k : psd k -> psd (fun p q => exp (k p q)).
  Proof.
    intro K. apply psd_lim with (fun n p q => Rsum (map (fun i => k p q ^ i / INR (fact i)) (seq 0 n))).
    - intro n. apply psd_ext with (fun p q => Rsum (map (fun h : P -> P -> R => h p q) (map (fun i p q => / INR (fact i) * k p q ^ i) (seq 0 n)))).
      + intros p q. rewrite map_map. apply Rsum_map_ext. intros. unfold Rdiv. ring.
      + apply psd_sum. intros h Hh. apply in_map_iff in Hh as (i & <- & _). apply psd_scal; [|now apply psd_pow].
        left. apply Rinv_0_lt_compat, INR_fact_lt_0.
    - intros. apply is_lim_exp.
  Qed.

  (** conditionally negative definite kernels and Schoenberg's theorem *)
  Definition cnd k : Prop := (forall a b, k a b = k b a) /\ forall ms, Rsum (map snd ms) = 0 -> bil k ms ms <= 0.
  Lemma lin_const (ms : list (P * R)) c : lin ms (fun _ => c) = Rsum (map snd ms) * c.
  Proof. unfold lin. rewrite Rsum_map_scal_r. reflexivity. Qed.
  Lemma schoenberg k : cnd k -> psd (fun p q => exp (- k p q)).
  Proof.
    intros [S H]. split; [intros; now rewrite S|]. intros [|[z c0] ms0]; [unfold bil; cbn; lra|].
    set (phi := fun p q => k p z + k q z - k p q - k z z).
    assert (Phi : psd phi).
    { split; [intros; unfold phi; rewrite (S a b); ring|]. intro ms.
      specialize (H ((z, - Rsum (map snd ms)) :: ms)).
      assert (Z : Rsum (map snd ((z, - Rsum (map snd ms)) :: ms)) = 0) by (cbn; ring). specialize (H Z).
      set (W := Rsum (map snd ms)) in *. set (L := lin ms (fun p => k p z)).
      assert (E1 : bil k ((z, - W) :: ms) ((z, - W) :: ms) = bil k ms ms - 2 * W * L + W * W * k z z).
      { change ((z, - W) :: ms) with ([(z, - W)] ++ ms). rewrite bil_app_l, !bil_app_r, bil1.
        rewrite (bil_sym k [_] ms S). rewrite bil_lin with (a := ms) (b := [(z, - W)]).
        unfold lin at 1. cbn [map Rsum]. unfold lin; cbn [map Rsum fst snd].
        rewrite (Rsum_map_ext _ (fun n => (- W) * (snd n * k (fst n) z))) by (intros; ring).
        rewrite Rsum_map_scal. fold (lin ms (fun p => k p z)). fold L. ring. }
      assert (E2 : bil phi ms ms = 2 * W * L - bil k ms ms - W * W * k z z).
      { unfold phi. rewrite bil_lin.
        rewrite (lin_ext ms _ (fun p => W * k p z + (L + (-1) * lin ms (fun q => k p q) + (- W * k z z)))).
        - rewrite !lin_add, !lin_mul, !lin_const. fold W. fold L. rewrite <- bil_lin. ring.
        - intro p. rewrite (lin_ext ms _ (fun q => k p z + (k q z + ((-1) * k p q + (- k z z))))) by (intro; ring).
          rewrite !lin_add, lin_mul, !lin_const. fold W. fold L. change (fun q : P => k p q) with (k p). ring. }
      lra. }
    set (ms := (z, c0) :: ms0).
    rewrite (bil_ext _ (fun p q => exp (k z z) * ((exp (- k p z) * exp (- k q z)) * exp (phi p q)))).
    - apply (psd_scal (exp (k z z)) _ (Rlt_le _ _ (exp_pos _)) (psd_reweight (fun p => exp (- k p z)) _ (psd_exp _ Phi))).
    - intros p q. rewrite <- !exp_plus. f_equal. unfold phi. ring.
  Qed.
  Lemma cnd_scal c k : 0 <= c -> cnd k -> cnd (fun p q => c * k p q).
  Proof. intros C [S H]. split; [intros; now rewrite S|]. intros ms Z. rewrite bil_scalk. specialize (H ms Z). nra. Qed.

  (** derivatives of quadratic forms *)
  Lemma derive_lin (ms : list (P * R)) (f : R -> P -> R) (g : P -> R) t : (forall p, is_derive (fun t => f t p) t (g p)) ->
    is_derive (fun t => lin ms (f t)) t (lin ms g).
  Proof.
    intro H. induction ms as [|[p c] ms IH]; [apply is_derive_Reals, (derivable_pt_lim_const 0)|].
    apply is_derive_ext with (fun t => c * f t p + lin ms (f t)); [intro; reflexivity|].
    change (lin ((p, c) :: ms) g) with (c * g p + lin ms g).
    apply @is_derive_plus; auto. apply is_derive_Reals, derivable_pt_lim_scal, is_derive_Reals, H.
  Qed.
  Lemma derive_bil ms ns (f : R -> P -> P -> R) g t : (forall p q, is_derive (fun t => f t p q) t (g p q)) ->
    is_derive (fun t => bil (f t) ms ns) t (bil g ms ns).
  Proof. intro H. apply (derive_lin ms (fun t p => lin ns (f t p)) (fun p => lin ns (g p))). intro p. apply (derive_lin ns (fun t => f t p) (g p)). intro. apply H. Qed.
End Bilinear.

Lemma increasing_from (f f' : R -> R) a b : a <= b -> (forall t, a <= t <= b -> is_derive f t (f' t)) -> (forall t, a < t < b -> 0 <= f' t) ->
  f a <= f b.
Proof.
  intros L D N. destruct (Req_dec a b) as [->|Ne]; [lra|].
  destruct (MVT_cor2 f f' a b ltac:(lra)) as (c & E & Hc).
  - intros c Hc. apply is_derive_Reals, D. lra.
  - specialize (N c Hc). nra.
Qed.
