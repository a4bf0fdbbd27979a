(** * Property theorems: square root kernels (C56) and their scale in kernel thinning (C57) *)
From Coq Require Import List ZArith Reals Lra Lia Bool FunctionalExtensionality.
From Verif Require Import Num Jax RSum DataModel MeanModel GreedyModel MetricModel CholModel MapReduceModel KTModel KTSpec
  KernelModel KernelSpec KernelProofs KernelProofs2 KernelProofs4 KernelProofs7 PropKernel GaussProofs SqrtSpec SqrtProofs KTProofs5 PropKT.
From Coquelicot Require Import Coquelicot.
Import ListNotations.
Open Scope R_scope.

(** ** C56: [get_sqrt_kernel] returns a square root kernel: integrating the product of the
    returned kernel with itself over R^d gives the original kernel *)
Theorem C56_sqrt_kernel :
  forall jgrad keq (len scale : R) (d : nat), (forall a b, keq a b = true -> a = b) ->
  0 < len -> 0 < scale ->
  exists root (k_rt : list R -> list R -> R),
    se_sqrt_kernel EROps ERT (Fin len) (Fin scale) d = Ok root /\
    (forall x y, m_val (methods EROps ERT jgrad keq root) (map Fin x) (map Fin y) = Sc (Fin (k_rt x y))) /\
    forall x y, length x = d -> length y = d ->
      iterated_integral d (fun z => k_rt x z * k_rt z y) (scale * exp (- (sqdist x y / (2 * len ^ 2)))).
Proof.
  intros jgrad keq len scale d KS Hl Hs. destruct (root_kernel len scale d Hl Hs) as (A & B & E).
  exists (lift (KSE (root_length len) (root_scale len scale d))), (kfun (KSE (root_length len) (root_scale len scale d))).
  split; [exact E|]. split.
  - intros x y. apply kernel_value; [exact KS|]. cbn. auto.
  - intros x y Hx Hy. exact (root_integral len scale d x y Hl Hs Hx Hy).
Qed.
Print Assumptions C56_sqrt_kernel.
(** the iterated integral is unique, so the statement determines the kernel *)
Lemma iterated_unique d : forall f v w, iterated_integral d f v -> iterated_integral d f w -> v = w.
Proof.
  induction d as [|d IH]; cbn [iterated_integral]; intros f v w Hv Hw; [congruence|].
  destruct Hv as (g & G1 & G2), Hw as (h & H1 & H2).
  assert (H2' : is_RInt_gen g (Rbar_locally m_infty) (Rbar_locally p_infty) w).
  { apply is_RInt_gen_ext with h; [|exact H2]. apply filter_forall. intros ab x _. exact (IH _ _ _ (H1 x) (G1 x)). }
  rewrite <- (is_RInt_gen_unique (V := R_CompleteNormedModule) g v G2). apply is_RInt_gen_unique. exact H2'.
Qed.
Theorem C56_integral_is_determined d (f : list R -> R) v w : iterated_integral d f v -> iterated_integral d f w -> v = w.
Proof. apply iterated_unique. Qed.
Print Assumptions C56_integral_is_determined.
Example C56_applies : exists root k_rt,
  se_sqrt_kernel EROps ERT (Fin 2) (Fin 3) 2 = Ok root /\
  (forall x y, m_val (methods EROps ERT (fun _ x => x) ex_keq root) (map Fin x) (map Fin y) = Sc (Fin (k_rt x y))) /\
  iterated_integral 2 (fun z => k_rt [0; 1] z * k_rt z [1; 1]) (3 * exp (- (1 / 8))).
Proof.
  destruct (C56_sqrt_kernel (fun _ x => x) ex_keq 2 3 2 ex_keq_sound ltac:(lra) ltac:(lra)) as (root & k & A & B & C).
  exists root, k. split; [exact A|]. split; [exact B|]. specialize (C [0; 1] [1; 1] eq_refl eq_refl).
  replace (- (1 / 8)) with (- (sqdist [0; 1] [1; 1] / (2 * 2 ^ 2))); [exact C|]. rewrite !sqdist_cons. unfold sqdist, Rdot, vsub. cbn. field.
Qed.

(** ** C57: multiplying the square root kernel by a positive number changes no coreset.
    No assumption on kernels, data, coin flips or NaNs. *)
(** the solver with another square root kernel *)
Definition with_sqrt {V P K} (s : kthin V P K) (k : P -> P -> V) : kthin V P K :=
  mkKT (kt_size s) (kt_kernel s) k (kt_delta s) (kt_key s) (kt_log s) (kt_split s) (kt_uniform s) (kt_choice s) (kt_depth s) (kt_ord s).
Theorem C57_kernel_thinning_scale :
  forall P Y K (p0 : P) (y0 : Y) (s : kthin ER P K) (d : Data P Y ER) (c : R), 0 < c ->
  kt_reduce EROps p0 y0 (with_sqrt s (fun a b => fmul EROps (Fin c) (kt_sqrt s a b))) d = kt_reduce EROps p0 y0 s d.
Proof. intros. now apply (reduce_scale p0 y0 c). Qed.
Print Assumptions C57_kernel_thinning_scale.
Example C57_applies : exists l,
  kt_reduce EROps 0 tt (with_sqrt (ex_kt 3) (fun a b => fmul EROps (Fin 5) (kt_sqrt (ex_kt 3) a b))) (unsup [0; 1; 2; 3; 4; 5; 6] [1; 2; 1; 1; 3; 1; 1])
  = Ok (mkCS (map Z.of_nat l) (repeat (Fin 1) 3) (unsup [0; 1; 2; 3; 4; 5; 6] [1; 2; 1; 1; 3; 1; 1])) /\ NoDup l.
Proof. rewrite C57_kernel_thinning_scale by lra. exact C29_applies. Qed.
Theorem C57_compress_scale :
  forall P Y K (p0 : P) (y0 : Y) (s : kthin ER P K) (d : Data P Y ER) g log4 fuel (c : R), 0 < c ->
  compress_reduce EROps p0 y0 (mkCP g (with_sqrt s (fun a b => fmul EROps (Fin c) (kt_sqrt s a b))) log4) fuel d
  = compress_reduce EROps p0 y0 (mkCP g s log4) fuel d.
Proof. intros. now apply (compress_scale p0 y0 c). Qed.
Print Assumptions C57_compress_scale.
(** in particular the dimension given to [get_sqrt_kernel] (hard-wired to 16 in
    benchmark_util.py:148) does not influence the coreset *)
Lemma mul_mul c s v : 0 < c -> 0 < s -> fmul EROps (Fin c) (fmul EROps (Fin s) v) = fmul EROps (Fin (c * s)) v.
Proof.
  intros Hc Hs. rewrite !sc_mul; auto; [|now apply Rmult_lt_0_compat]. destruct v; cbn; auto. f_equal. ring.
Qed.
Theorem C57_dimension_irrelevant :
  forall Y K (p0 : list ER) (y0 : Y) (s : kthin ER (list ER) K) (d : Data (list ER) Y ER) jgrad keq (len scale : R) d1 d2,
  0 < len -> 0 < scale ->
  exists r1 r2, se_sqrt_kernel EROps ERT (Fin len) (Fin scale) d1 = Ok r1 /\ se_sqrt_kernel EROps ERT (Fin len) (Fin scale) d2 = Ok r2 /\
  let val r := fun a b => unsc EROps (m_val (methods EROps ERT jgrad keq r) a b) in
  kt_reduce EROps p0 y0 (with_sqrt s (val r1)) d = kt_reduce EROps p0 y0 (with_sqrt s (val r2)) d.
Proof.
  intros Y K p0 y0 s d jgrad keq len scale d1 d2 Hl Hs.
  destruct (root_kernel len scale d1 Hl Hs) as (A1 & B1 & E1). destruct (root_kernel len scale d2 Hl Hs) as (A2 & B2 & E2).
  eexists. eexists. split; [exact E1|]. split; [exact E2|]. intro val.
  set (s2 := with_sqrt s (val (lift (KSE (root_length len) (root_scale len scale d2))))).
  set (c := root_scale len scale d1 / root_scale len scale d2). assert (Hc : 0 < c) by now apply Rdiv_lt_0_compat.
  rewrite <- (C57_kernel_thinning_scale _ _ _ p0 y0 s2 d c Hc). f_equal. unfold s2. unfold with_sqrt. cbn [kt_sqrt kt_size kt_kernel kt_delta kt_key kt_log kt_split kt_uniform kt_choice kt_depth kt_ord].
  f_equal. extensionality a. extensionality b.
  unfold val. cbn [lift methods se_meth m_val unsc]. unfold se_val. rewrite mul_mul by assumption. do 2 f_equal. unfold c. field. lra.
Qed.
Print Assumptions C57_dimension_irrelevant.
