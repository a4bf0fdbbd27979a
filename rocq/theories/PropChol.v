(** * Properties of RandomSample and RPCholesky *)
From Coq Require Import List ZArith QArith Bool Reals Permutation Lia Lra.
From Verif Require Import Num Jax RSum JaxFacts DataModel GreedyModel CholModel CholSpec MetricSpec MetricProofs
  MapReduceProofs3 GreedyProofs CholProofs CholProofs2.
Import ListNotations.
Open Scope nat_scope.

(** ** C27, C04: random sampling *)
Theorem C27_random_sample {P Y} (p0 : P) (y0 : Y) (s : @random_sample ER) (d : Data P Y ER) :
  choice_ok (rs_choice s) ->
  (rs_size s > d_len d -> random_reduce EROps p0 y0 s d = Err ValueError) /\
  (rs_size s <= d_len d -> exists l,
     random_reduce EROps p0 y0 s d = Ok (mkCS (map Z.of_nat l) (repeat (Fin 1%R) (rs_size s)) d) /\
     length l = rs_size s /\ (forall i, In i l -> i < d_len d) /\ (rs_unique s = true -> NoDup l)).
Proof. intros H. destruct (random_outcome EROps p0 y0 s d H) as [A B]. split; [intros L; apply A; lia|exact B]. Qed.
Print Assumptions C27_random_sample.

(** a choice function meeting the contract: always the first [draws] indices *)
Definition first_choice (V : Type) (n draws : nat) (_ : option (list V)) (replace : bool) : result (list nat) :=
  if (negb replace && (n <? draws)) || ((n =? 0) && (0 <? draws)) then Err ValueError
  else Ok (map (fun i => i mod n) (seq 0 draws)).
Lemma first_choice_ok V : choice_ok (first_choice V).
Proof.
  intros n draws p r. unfold first_choice. split.
  - intros [[-> H]|[-> H]].
    + simpl. rewrite (proj2 (Nat.ltb_lt n draws)) by lia. reflexivity.
    + simpl. rewrite (proj2 (Nat.ltb_lt 0 draws)) by lia. now rewrite orb_true_r.
  - intros [H1 H2]. exists (map (fun i => i mod n) (seq 0 draws)). split.
    + replace (negb r && (n <? draws)) with false.
      * replace ((n =? 0) && (0 <? draws)) with false; [reflexivity|].
        destruct (Nat.eqb_spec n 0), (Nat.ltb_spec 0 draws); simpl; auto; lia.
      * destruct r, (Nat.ltb_spec n draws); simpl; auto. destruct H1; [discriminate|lia].
    + split; [now rewrite map_length, seq_length|]. split.
      * intros i Hi. apply in_map_iff in Hi as [j [<- Hj]]. apply in_seq in Hj. apply Nat.mod_upper_bound. lia.
      * intros ->. destruct H1 as [?|H1]; [discriminate|].
        rewrite (map_ext_in _ (fun i => i)); [rewrite map_id; apply seq_NoDup|].
        intros i Hi. apply in_seq in Hi. apply Nat.mod_small. lia.
Qed.
Example C27_applies : exists l, random_reduce EROps 0 tt (mkRS 2 true true (first_choice ER)) (mkData [10; 11; 12] [Fin 1; Fin 2; Fin 0]%R None)
   = Ok (mkCS (map Z.of_nat l) (repeat (Fin 1%R) 2) (mkData [10; 11; 12] [Fin 1; Fin 2; Fin 0]%R None)) /\ NoDup l.
Proof.
  destruct (C27_random_sample 0 tt (mkRS 2 true true (first_choice ER)) (mkData [10; 11; 12] [Fin 1; Fin 2; Fin 0]%R None) (first_choice_ok ER)) as [_ H].
  destruct H as [l [E [_ [_ N]]]]; [cbn; lia|]. exists l. auto.
Qed.

(** ** C23: RPCholesky pivots.  The off-diagonal kernel values are arbitrary (finite,
    infinite or NaN); [st] is an optional state from an earlier call. *)
Theorem C23_rpcholesky_pivots {P Y} (p0 : P) (y0 : Y) (s : @rpcholesky ER P) (d : Data P Y ER) st :
  pick_ok (ch_pick s) ->
  (forall a, In a (d_x d) -> diag_ok (ch_kernel s a a)) ->
  (forall g, st = Some g -> length g = d_len d /\ Forall diag_ok g) ->
  (ch_size s > d_len d -> chol_reduce EROps p0 y0 s d st = Err ValueError) /\
  (ch_size s <= d_len d -> exists l g,
    chol_reduce EROps p0 y0 s d st = Ok (mkCS (map Z.of_nat l) (repeat (Fin 1%R) (ch_size s)) d, g) /\
    length l = ch_size s /\ (forall i, In i l -> i < d_len d) /\ (ch_unique s = true -> NoDup l) /\
    length g = d_len d /\ Forall diag_ok g).
Proof.
  intros Hp Hk Hs. split; intros H.
  - unfold chol_reduce, initial_coresubset, cs_init, points, d_getitem, d_len in *. cbn [d_x c_idx].
    rewrite gather_length, repeat_length.
    destruct (Nat.ltb_spec (length (d_x d)) (ch_size s)); [reflexivity|lia].
  - destruct (chol_outcome p0 y0 s d st Hp H Hk Hs) as [l [g [E [L [R [U G]]]]]]. exists l, g. auto.
Qed.
Print Assumptions C23_rpcholesky_pivots.

(** a pivot rule meeting the contract: the first index of positive probability *)
Fixpoint first_positive (p : list ER) : nat :=
  match p with
  | [] => 0
  | v :: p' => if fltb EROps (Fin 0%R) v then 0 else if existsb (fltb EROps (Fin 0%R)) p' then S (first_positive p') else 0
  end.
Lemma first_positive_ok : pick_ok (fun _ => first_positive).
Proof.
  intros _ p Hp. split.
  - induction p as [|v p IH]; [congruence|]. simpl. destruct (match v with Fin _ => _ | _ => _ end); [lia|].
    destruct (existsb _ p) eqn:E; [|lia]. destruct p; [discriminate|]. assert (e :: p <> []) by discriminate. specialize (IH H). simpl in *. lia.
  - intros Hn Hx.
    assert (E : existsb (fltb EROps (Fin 0%R)) p = true).
    { destruct Hx as [r [I Hr]]. apply existsb_exists. exists (Fin r). split; auto. cbn. now apply Rltb_true. }
    clear Hp Hx. induction p as [|v p IH]; [discriminate|]. cbn [existsb first_positive] in *.
    destruct (fltb EROps (Fin 0%R) v) eqn:Ev.
    + destruct (Hn v (or_introl eq_refl)) as [r [-> _]]. exists r. split; auto. cbn in Ev. now apply Rltb_true in Ev.
    + cbn [orb] in E. rewrite E. apply IH; auto. intros w Hw. apply Hn. now right.
Qed.
(** a constant kernel: the residual vanishes after the first pivot *)
Example C23_applies : exists l g,
  chol_reduce EROps 0 tt (mkChol 3 (fun _ _ => Fin 1%R) true (fun _ => first_positive)) (mkData [7; 8; 9] (repeat (Fin 1%R) 3) (Some [tt; tt; tt])) None
    = Ok (mkCS (map Z.of_nat l) (repeat (Fin 1%R) 3) (mkData [7; 8; 9] (repeat (Fin 1%R) 3) (Some [tt; tt; tt])), g) /\ NoDup l.
Proof.
  destruct (C23_rpcholesky_pivots 0 tt (mkChol 3 (fun _ _ => Fin 1%R) true (fun _ => first_positive))
     (mkData [7; 8; 9] (repeat (Fin 1%R) 3) (Some [tt; tt; tt])) None first_positive_ok) as [_ H].
  - intros. right. exists 1%R. split; [reflexivity|lra].
  - discriminate.
  - destruct H as [l [g [E [_ [_ [U _]]]]]]; [cbn; lia|]. exists l, g. split; auto.
Qed.

(** ** C24: the tracked diagonal is the exact residual *)
(** Observable part: the returned state.  [residual K l] is what is left of the Gramian
    [K] after eliminating the returned pivots one after the other. *)
Theorem C24_returned_residual {P Y} (p0 : P) (y0 : Y) (s : @rpcholesky ER P) (k : P -> P -> R) (d : Data P Y ER) :
  pick_ok (ch_pick s) -> (forall a b, ch_kernel s a b = Fin (k a b)) -> psd k -> ch_size s <= d_len d ->
  exists l g,
    chol_reduce EROps p0 y0 s d None = Ok (mkCS (map Z.of_nat l) (repeat (Fin 1%R) (ch_size s)) d, g) /\
    length l = ch_size s /\
    let K := fun i j => k (nth i (d_x d) p0) (nth j (d_x d) p0) in
    ((forall t, t < ch_size s -> exists i, i < d_len d /\ residual K (firstn t l) i i <> 0%R) ->
     g = map (fun i => Fin (residual K l i i)) (seq 0 (d_len d)) /\
     (forall i, (0 <= residual K l i i)%R) /\
     (forall p j, In p l -> residual K l p j = 0%R) /\
     (forall t, t < ch_size s -> (0 < residual K (firstn t l) (nth t l 0%nat) (nth t l 0%nat))%R)).
Proof.
  intros Hp Hk Hpsd Hm.
  pose proof (chol_run p0 s k (d_x d) Hp Hk Hpsd Hm) as [l [L1 [L2 L3]]].
  unfold chol_reduce. rewrite initial_ok by assumption. cbn [bind c_idx].
  set (out := fori _ _ _) in *. exists l, (c_diag out). rewrite L2.
  unfold cs_build, conv_data. cbn [bind]. unfold cs_init, points, d_getitem, d_len in *. cbn [d_x c_idx].
  rewrite gather_length, map_length, L1.
  destruct (Nat.ltb_spec (length (d_x d)) (ch_size s)); [lia|]. cbn [bind].
  split; [reflexivity|]. split; auto. intros HX. destruct (L3 HX) as [[G T] Pos].
  destruct T as [Tp Td Tm Tg Tz Tr Tw]. split; [exact Td|]. split; [intros; now apply psd_diag|]. split; auto.
Qed.
Print Assumptions C24_returned_residual.

(** The factor: after [t] steps, if no earlier residual was exhausted, the approximation
    matrix [F] reproduces the Gramian on every pivot row, the tracked diagonal is
    diag(K - F F^T), K - F F^T is positive semi-definite; and once the tracked diagonal
    is exhausted the factorisation is exact. *)
Theorem C24_factorisation {P} (p0 : P) (s : @rpcholesky ER P) (k : P -> P -> R) (x : list P) t :
  pick_ok (ch_pick s) -> (forall a b, ch_kernel s a b = Fin (k a b)) -> psd k ->
  ch_size s <= length x -> t <= ch_size s ->
  let state u := fori u (chol_body EROps p0 s x)
     (mkC (map (fun a => ch_kernel s a a) x) (repeat (repeat (f0 EROps) (ch_size s)) (length x))
          (repeat (Z.of_nat (length x) + 1)%Z (ch_size s))) in
  let K := fun i j => k (nth i x p0) (nth j x p0) in
  (forall u, u < t -> exists i, i < length x /\ nth i (c_diag (state u)) NaN <> Fin 0%R) ->
  exists l F,
    firstn t (c_ind (state t)) = map Z.of_nat l /\ length l = t /\ (forall p, In p l -> p < length x) /\
    c_mat (state t) = map (map Fin) F /\ is_mat (length x) (ch_size s) F /\
    let FF := fun i j => Rdot (nth i F []) (nth j F []) in
    (forall i, i < length x -> nth i (c_diag (state t)) NaN = Fin (K i i - FF i i)%R /\ (0 <= K i i - FF i i)%R) /\
    (forall p j, In p l -> j < length x -> FF p j = K p j) /\
    (forall ms, (forall q, In q ms -> fst q < length x) -> (0 <= bil (fun i j => K i j - FF i j)%R ms ms)%R) /\
    ((forall i, i < length x -> nth i (c_diag (state t)) NaN = Fin 0%R) ->
     forall i j, i < length x -> j < length x -> K i j = FF i j).
Proof.
  intros Hp Hk Hpsd Hm Ht state K HX.
  assert (DN : forall u l G j, tinv p0 s k x u (state u) l G -> j < length x -> nth j (c_diag (state u)) NaN = Fin (residual K l j j)).
  { intros u l G j T Hj. rewrite (t_diag _ _ _ _ _ _ _ _ T), (nth_map_lt _ (seq 0 (length x)) j 0) by (rewrite seq_length; lia). now rewrite seq_nth. }
  (* the hypothesis on the states gives the one on residuals *)
  assert (Q : forall u, u <= t -> exists l G, tinv p0 s k x u (state u) l G /\ length l = u /\
      c_ind (state u) = map Z.of_nat l ++ repeat (Z.of_nat (length x) + 1)%Z (ch_size s - u) /\ forall p, In p l -> p < length x).
  { induction u as [|u IH]; intros Hu.
    - exists [], (repeat (repeat 0%R (ch_size s)) (length x)). split; [now apply track_init|]. split; auto. split; [|contradiction].
      cbn. now rewrite Nat.sub_0_r.
    - destruct IH as [l [G [T [L1 [L2 L3]]]]]; [lia|].
      assert (E : exists i, i < length x /\ residual K l i i <> 0%R).
      { destruct (HX u) as [i [Hi Ni]]; [lia|]. exists i. split; auto. intros Z. apply Ni.
        now rewrite (DN u l G i T Hi), Z. }
      assert (Hst : state (S u) = chol_body EROps p0 s x u (state u)) by (unfold state; now rewrite fori_S).
      destruct (track_pick p0 s k x Hp u (state u) l G T E) as [P1 _].
      rewrite Hst. do 2 eexists. split; [apply track_step; eauto; lia|]. split; [rewrite app_length; simpl; lia|]. split.
      + unfold chol_body. cbn [c_ind]. set (p := ch_pick s u _). rewrite L2. rewrite <- L1 at 1. rewrite <- (map_length Z.of_nat l).
        rewrite upd_app_repeat by lia. rewrite map_app. cbn [map]. f_equal. f_equal. lia.
      + intros i Hi. apply in_app_iff in Hi as [Hi|[<-|[]]]; auto. }
  destruct (Q t (le_n _)) as [l [F [T [L1 [L2 L3]]]]].
  exists l, F. split.
  { rewrite L2, firstn_app, map_length, L1, Nat.sub_diag, app_nil_r. rewrite firstn_all2; [reflexivity|]. rewrite map_length. lia. }
  split; auto. split; auto. pose proof T as [Tp Td Tm Tg Tz Tr Tw]. split; auto. split; auto. intros FF.
  assert (RF : forall i j, i < length x -> j < length x -> residual K l i j = (K i j - FF i j)%R) by (intros; now apply Tr).
  split; [|split; [|split]].
  - intros i Hi. rewrite (DN t l F i T Hi), RF by assumption. split; auto. rewrite <- RF by assumption. now apply psd_diag.
  - intros p j Ip Hj. pose proof (RF p j (L3 p Ip) Hj) as E. rewrite Tw in E by assumption. lra.
  - intros ms Hms. replace (bil _ ms ms) with (bil (residual K l) ms ms); [apply Tp|].
    unfold bil. apply Rsum_map_ext. intros a Ha. f_equal. apply Rsum_map_ext. intros b Hb. f_equal. apply RF; auto.
  - intros Z i j Hi Hj. pose proof (RF i j Hi Hj) as E.
    rewrite (psd_zero (residual K l) i j Tp) in E; [lra|].
    specialize (Z i Hi). rewrite (DN t l F i T Hi) in Z. now injection Z.
Qed.
Print Assumptions C24_factorisation.

(** the linear kernel on the line, three points, one pivot *)
Lemma linear_psd : psd (fun a b : R => a * b)%R.
Proof.
  split; [intros; ring|]. intros ms. rewrite bil_lin.
  replace (lin ms _) with (lin ms (fun q => q) * lin ms (fun q => q))%R; [apply Rle_0_sqr|].
  rewrite (lin_ext ms (fun p => lin ms (fun q => p * q))%R (fun p => lin ms (fun q => q) * p)%R).
  - now rewrite lin_mul.
  - intros p. rewrite lin_mul. ring.
Qed.
Example C24_applies : exists l g,
  let x := [1; 2; 0]%R in
  chol_reduce EROps 0%R tt (mkChol 1 (fun a b => Fin (a * b)%R) true (fun _ => first_positive)) (mkData x (repeat (Fin 1%R) 3) None) None
    = Ok (mkCS (map Z.of_nat l) [Fin 1%R] (mkData x (repeat (Fin 1%R) 3) None), g) /\
  g = map (fun i => Fin (residual (fun i j => nth i x 0 * nth j x 0)%R l i i)) [0; 1; 2].
Proof.
  destruct (C24_returned_residual 0%R tt (mkChol 1 (fun a b => Fin (a * b)%R) true (fun _ => first_positive)) (fun a b => a * b)%R
    (mkData [1; 2; 0]%R (repeat (Fin 1%R) 3) None) first_positive_ok) as [l [g [E [L H]]]].
  - reflexivity.
  - apply linear_psd.
  - cbn. lia.
  - exists l, g. split; [exact E|]. apply H. intros t Ht. cbn in Ht. exists 0. split; [cbn; lia|].
    replace t with 0 by lia. cbn. lra.
Qed.

(** ** C21: re-using the returned state *)
(** Finding: the state returned by [RPCholesky.reduce] holds the residual diagonal, not
    the Gramian diagonal its name promises; passing it back changes the coreset. *)
Theorem C21_rpcholesky_state_refuted :
  exists (s : @rpcholesky ER bool) (d : Data bool unit ER) c g c' g',
    pick_ok (ch_pick s) /\
    chol_reduce EROps true tt s d None = Ok (c, g) /\ chol_reduce EROps true tt s d (Some g) = Ok (c', g') /\ c_idx c = [0%Z] /\ c_idx c' = [1%Z].
Proof.
  set (s := mkChol 1 (fun a b : bool => Fin (if Bool.eqb a b then 1 else 0)%R) true (fun _ => first_positive)).
  set (d := mkData [true; false] [Fin 1%R; Fin 1%R] (@None (list unit))).
  assert (L01 : nltb ROps 0%R 1%R = true) by (apply Rltb_true; lra).
  assert (L10 : nltb ROps 1%R 0%R = false) by (apply Rltb_false; lra).
  assert (L00 : nltb ROps 0%R 0%R = false) by (apply Rltb_false; lra).
  assert (V : forall m, valid_residuals EROps [Fin 1%R; Fin 1%R] m = [Fin 1%R; Fin 1%R]).
  { intros. unfold valid_residuals, feqb, fleb. cbn. now rewrite L10, L01. }
  assert (W : forall m, valid_residuals EROps [Fin 0%R; Fin 1%R] m = [Fin 0%R; Fin 1%R]).
  { intros. unfold valid_residuals, feqb, fleb. cbn. now rewrite L10, L01, L00. }
  assert (F1 : first_positive [Fin 1%R; Fin 1%R] = 0) by (cbn; now rewrite L01).
  assert (F2 : first_positive [Fin 0%R; Fin 1%R] = 1) by (cbn; now rewrite L00, L01).
  assert (E1 : chol_reduce EROps true tt s d None = Ok (mkCS [0%Z] [Fin 1%R] d, [Fin 0%R; Fin 1%R])).
  { unfold chol_reduce. rewrite initial_ok by (cbn; lia). cbn [bind c_idx].
    replace (fori _ _ _) with (mkC [Fin 0%R; Fin 1%R] [[Fin 1%R]; [Fin 0%R]] [0%Z]); [reflexivity|].
    change (map (fun a => ch_kernel s a a) (d_x d)) with [Fin 1%R; Fin 1%R].
    cbn [ch_size s fori seq fold_left]. unfold chol_body. cbn [c_diag c_ind ch_pick s]. rewrite V, F1.
    replace (chol_column _ _ _ _ _ _) with [Fin 1%R; Fin 0%R].
    2: { unfold chol_column. cbn. repeat f_equal; lra. }
    cbn [map nth]. rewrite MetricProofs.fsqrt_fin, sqrt_1, !fdiv_fin by lra.
    replace (1 / 1)%R with 1%R by lra. replace (0 / 1)%R with 0%R by lra.
    cbn [map2 upd repeat d d_x length c_mat ch_unique s ch_size]. f_equal.
    unfold fmax. cbn. replace (1 - 0 * 0)%R with 1%R by lra. now rewrite L10. }
  exists s, d, (mkCS [0%Z] [Fin 1%R] d), [Fin 0%R; Fin 1%R], (mkCS [1%Z] [Fin 1%R] d). eexists.
  split; [apply first_positive_ok|]. split; [exact E1|]. split; [|split; reflexivity].
  unfold chol_reduce. rewrite initial_ok by (cbn; lia). cbn [bind c_idx].
    cbn [ch_size s fori seq fold_left]. unfold chol_body. cbn [c_diag c_ind ch_pick s]. rewrite W, F2.
  cbn [upd repeat c_ind]. reflexivity.
Qed.
Print Assumptions C21_rpcholesky_state_refuted.

(** ** C44: RandomSample and RPCholesky *)
(** same indices and weights, or the same exception *)
Definition same_selection {P Y V S} (a b : result (Coresubset P Y V * S)) : Prop :=
  match a, b with
  | Ok (c, s), Ok (c', s') => c_idx c = c_idx c' /\ c_w c = c_w c' /\ s = s'
  | Err e, Err e' => e = e'
  | _, _ => False
  end.
Theorem C44_supervised_selection_partial :
  forall V (O : FOps V) P Y (p0 : P) (y0 : Y) (x : list P) (w : list V) (y : list Y),
  (forall (s : random_sample (V := V)),
    same_selection (do c <- random_reduce O p0 y0 s (mkData x w (Some y)); Ok (c, tt))
                   (do c <- random_reduce O p0 y0 s (mkData x w None); Ok (c, tt))) /\
  (forall (s : rpcholesky (V := V) (P := P)) state,
    same_selection (chol_reduce O p0 y0 s (mkData x w (Some y)) state) (chol_reduce O p0 y0 s (mkData x w None) state)).
Proof.
  intros V O P Y p0 y0 x w y. split.
  - intro s. unfold random_reduce. cbn [d_w]. change (d_len (mkData x w (Some y))) with (length x). change (d_len (mkData x w (@None (list Y)))) with (length x).
    destruct (rs_choice s (length x) (rs_size s) _ _) as [idx|e]; [|reflexivity]. cbn [bind].
    unfold cs_init. cbn [d_len d_x].
    repeat match goal with |- context [if ?b then _ else _] => destruct b eqn:?; cbn [bind same_selection] end;
    cbn in *; try congruence; repeat split; reflexivity.
  - intros s st. unfold chol_reduce, initial_coresubset. cbn [d_x].
    unfold cs_build, conv_data, cs_init. cbn [bind].
    change (d_len (points O p0 y0 (mkCS ?a ?b (mkData x w ?c)))) with (length (gather p0 x a)).
    change (d_len (mkData x w ?c)) with (length x).
    destruct (length x <? _)%nat; [reflexivity|]. cbn [bind c_idx].
    change (d_len (points O p0 y0 (mkCS ?a ?b (mkData x w ?c)))) with (length (gather p0 x a)).
    change (d_len (mkData x w ?c)) with (length x).
    destruct (length x <? _)%nat; [reflexivity|]. repeat split; reflexivity.
Qed.
Print Assumptions C44_supervised_selection_partial.
Example C44_supervised_selection_applies :
  let s := mkRS 2 true true (fun _ _ _ _ => Ok [2; 0]%nat) in
  let x := [5; 6; 7]%Z in let w := [Fin 1; Fin 2; Fin 1]%Q : list EQ in
  random_reduce EQOps 0%Z 0%Z s (mkData x w (Some [1; 2; 3]%Z))
  = Ok (mkCS [2; 0]%Z [Fin 1; Fin 1]%Q (mkData x w (Some [1; 2; 3]%Z))).
Proof. reflexivity. Qed.
