(** * Model of the kernels (coreax/kernels/base.py, coreax/kernels/scalar_valued.py)

    A kernel object is a term of [kern]; the four elementwise methods are functions of it.
    Method results are [ten]: JAX does not fix their rank, and the code mixes scalars with
    vectors. *)
From Coq Require Import List ZArith Bool.
From Verif Require Import Num Jax MeanModel UtilModel.
Import ListNotations.

(** the transcendental functions of jax.numpy *)
Record TOps (V : Type) : Type := mkTOps {
  fexp : V -> V; fsin : V -> V; fcos : V -> V; fpi : V; fpow : V -> V -> V
}.
Arguments fexp {V}. Arguments fsin {V}. Arguments fcos {V}. Arguments fpi {V}. Arguments fpow {V}.

(** a rank-0 or rank-1 array, or the outcome of an operation that raised *)
Inductive ten (V : Type) : Type := Sc (v : V) | Vec (l : list V) | TErr.
Arguments Sc {V}. Arguments Vec {V}. Arguments TErr {V}.

(** kernel objects with the constructor arguments of scalar_valued.py and base.py.
    [LocallyPeriodicKernel] (scalar_valued.py:638-656) is a [KProd]. *)
Inductive kern (V : Type) : Type :=
| KConst (c : V)                                  (* base.py:592-595 *)
| KLinear (scale const : V)                       (* scalar_valued.py:42-43 *)
| KPoly (scale const : V) (degree : Z)            (* 84-86 *)
| KExp (len scale : V)                            (* 155-156 *)
| KLap (len scale : V)                            (* 213-214 *)
| KSE (len scale : V)                             (* 263-264 *)
| KPCIMQ (len scale : V)                          (* 333-334 *)
| KRQ (len scale rw : V)                          (* 393-395 *)
| KMatern (len scale : V) (degree : Z)            (* 468-470 *)
| KPer (len scale period : V)                     (* 545-547 *)
| KPoisson (index scale : V)                      (* 683-684 *)
| KAdd (a b : kern V)                             (* base.py:725 *)
| KProd (a b : kern V)                            (* base.py:763 *)
| KPow (a : kern V) (n : Z)                       (* base.py:640, 652 *)
| KStein (a : kern V) (score : list V -> list V). (* 777-780 *)
Arguments KConst {V}. Arguments KLinear {V}. Arguments KPoly {V}. Arguments KExp {V}.
Arguments KLap {V}. Arguments KSE {V}. Arguments KPCIMQ {V}. Arguments KRQ {V}.
Arguments KMatern {V}. Arguments KPer {V}. Arguments KPoisson {V}. Arguments KAdd {V}.
Arguments KProd {V}. Arguments KPow {V}. Arguments KStein {V}.

(** the right operand of [+] and [*]; [OtherOperand] is anything else *)
Inductive operand (V : Type) : Type := OKernel (k : kern V) | ONumber (c : V) | OtherOperand.
Arguments OKernel {V}. Arguments ONumber {V}. Arguments OtherOperand {V}.

(** the elementwise methods of one kernel *)
Record meth (V : Type) : Type := mkMeth {
  m_val : list V -> list V -> ten V;
  m_gx : list V -> list V -> ten V;
  m_gy : list V -> list V -> ten V;
  m_div : list V -> list V -> ten V
}.
Arguments mkMeth {V}. Arguments m_val {V}. Arguments m_gx {V}. Arguments m_gy {V}. Arguments m_div {V}.

Section KernelModel.
  Context {V : Type} (O : FOps V) (T : TOps V).
  Notation "a +' b" := (fadd O a b) (at level 50, left associativity).
  Notation "a -' b" := (fsub O a b) (at level 50, left associativity).
  Notation "a *' b" := (fmul O a b) (at level 40, left associativity).
  Notation "a /' b" := (fdiv O a b) (at level 40, left associativity).
  Notation "# z" := (fofZ O z%Z) (at level 1).
  Notation "-' a" := (fneg O a) (at level 35).

  (** [x ** n] for a Python int [n] ([lax.integer_pow]) *)
  Fixpoint pown (x : V) (n : nat) : V := match n with 0 => f1 O | S n => x *' pown x n end.
  Definition fpowi (x : V) (n : Z) : V :=
    if (n <? 0)%Z then f1 O /' pown x (Z.to_nat (- n)) else pown x (Z.to_nat n).
  Definition sq (x : V) : V := fpowi x 2.
  (** [jnp.linalg.norm(v)] and [jnp.linalg.norm(v, ord=1)] *)
  Definition norm2 (v : list V) : V := fsqrt O (fdot O v v).
  Definition norm1 (v : list V) : V := fsum O (map (fabs O) v).
  (** [jnp.sign] *)
  Definition fsign (x : V) : V :=
    if fisnan O x then x else if fltb O (f0 O) x then f1 O else if fltb O x (f0 O) then -' f1 O else f0 O.
  (** [jax.scipy.special.factorial] *)
  Definition ffact (n : nat) : V := # (Z.of_nat (fact n)).

  (** broadcasting binary operations; data points have one dimension d, so two vectors
      always have equal length *)
  Definition tmap2 (f : V -> V -> V) (a b : ten V) : ten V :=
    match a, b with
    | TErr, _ | _, TErr => TErr
    | Sc x, Sc y => Sc (f x y)
    | Sc x, Vec l => Vec (map (f x) l)
    | Vec l, Sc y => Vec (map (fun x => f x y) l)
    | Vec l, Vec m => if length l =? length m then Vec (map2 f l m) else TErr
    end.
  Definition tmap (f : V -> V) (a : ten V) : ten V :=
    match a with Sc x => Sc (f x) | Vec l => Vec (map f l) | TErr => TErr end.
  Definition tadd := tmap2 (fadd O).
  Definition tmul := tmap2 (fmul O).
  (** [a.dot(b)]: multiplication when one side is a scalar *)
  Definition tdot (a b : ten V) : ten V :=
    match a, b with
    | Vec l, Vec m => if length l =? length m then Sc (fdot O l m) else TErr
    | _, _ => tmul a b
    end.
  (** [a @ b]: raises for scalars *)
  Definition tmatmul (a b : ten V) : ten V :=
    match a, b with
    | Vec l, Vec m => if length l =? length m then Sc (fdot O l m) else TErr
    | _, _ => TErr
    end.
  (** scalar times vector, the common shape of a hand-written gradient *)
  Definition vscale (a : V) (v : list V) : list V := map (fmul O a) v.

  (** *** Hand-written methods *)
  (** base.py:592-619 [_Constant] *)
  Definition const_meth (c : V) : meth V :=
    mkMeth (fun x y => Sc c) (fun x y => Sc (f0 O)) (fun x y => Sc (f0 O)) (fun x y => Sc (f0 O)).
  (** scalar_valued.py:52-67 [LinearKernel] *)
  Definition linear_meth (scale const : V) : meth V :=
    mkMeth (fun x y => Sc (scale *' fdot O x y +' const))
      (fun x y => Vec (vscale scale y)) (fun x y => Vec (vscale scale x))
      (fun x y => Sc (scale *' # (Z.of_nat (length x)))).
  (** 98-133 [PolynomialKernel] *)
  Definition poly_meth (scale const : V) (degree : Z) : meth V :=
    mkMeth (fun x y => Sc (scale *' fpowi (fdot O x y +' const) degree))
      (fun x y => Vec (map (fun yi => scale *' # degree *' yi *' fpowi (fdot O x y +' const) (degree - 1)) y))
      (fun x y => Vec (map (fun xi => scale *' # degree *' xi *' fpowi (fdot O x y +' const) (degree - 1)) x))
      (fun x y => let dot := fdot O x y in let body := dot +' const in
         Sc (scale *' # degree *'
             (# (degree - 1) *' dot *' fpowi body (degree - 2) +'
              # (Z.of_nat (length x)) *' fpowi body (degree - 1)))).
  (** 165-195 [ExponentialKernel] *)
  Definition exp_gy (len scale : V) (x y : list V) : list V :=
    let sub := difference O x y in let dist := norm2 sub in let factor := # 2 *' sq len in
    map (fun s => scale *' s *' fexp T (-' dist /' factor) /' (factor *' dist)) sub.
  Definition exp_meth (len scale : V) : meth V :=
    mkMeth (fun x y => Sc (scale *' fexp T (-' norm2 (difference O x y) /' (# 2 *' sq len))))
      (fun x y => Vec (map (fneg O) (exp_gy len scale x y)))
      (fun x y => Vec (exp_gy len scale x y))
      (fun x y =>
         let sub := difference O x y in let dist := norm2 sub in let factor := # 2 *' sq len in
         let ex := fexp T (-' dist /' factor) in
         let first_term := map (fun s => (-' ex *' s /' sq dist) *' (f1 O /' dist +' f1 O /' factor)) sub in
         let second_term := ex /' dist in
         Sc (scale /' factor *' (fdot O first_term sub +' # (Z.of_nat (length x)) *' second_term))).
  (** 223-245 [LaplacianKernel] *)
  Definition lap_val (len scale : V) (x y : list V) : V :=
    scale *' fexp T (-' norm1 (difference O x y) /' (# 2 *' sq len)).
  Definition lap_gy (len scale : V) (x y : list V) : list V :=
    map (fun s => fsign s /' (# 2 *' sq len) *' lap_val len scale x y) (difference O x y).
  Definition lap_meth (len scale : V) : meth V :=
    mkMeth (fun x y => Sc (lap_val len scale x y))
      (fun x y => Vec (map (fneg O) (lap_gy len scale x y)))
      (fun x y => Vec (lap_gy len scale x y))
      (fun x y => Sc (-' # (Z.of_nat (length x)) *' lap_val len scale x y /' (# 4 *' fpowi len 4))).
  (** 273-294 [SquaredExponentialKernel] *)
  Definition se_val (len scale : V) (x y : list V) : V :=
    scale *' fexp T (-' squared_distance O x y /' (# 2 *' sq len)).
  Definition se_gy (len scale : V) (x y : list V) : list V :=
    map (fun s => s /' sq len *' se_val len scale x y) (difference O x y).
  Definition se_meth (len scale : V) : meth V :=
    mkMeth (fun x y => Sc (se_val len scale x y))
      (fun x y => Vec (map (fneg O) (se_gy len scale x y)))
      (fun x y => Vec (se_gy len scale x y))
      (fun x y => let s := f1 O /' sq len in
         Sc (s *' se_val len scale x y *' (# (Z.of_nat (length x)) -' s *' squared_distance O x y))).
  (** 343-371 [PCIMQKernel] *)
  Definition pcimq_val (len scale : V) (x y : list V) : V :=
    let scaling := # 2 *' sq len in
    scale /' fsqrt O (f1 O +' squared_distance O x y /' scaling).
  Definition pcimq_gy (len scale : V) (x y : list V) : list V :=
    map (fun s => scale *' s /' (# 2 *' sq len) *' fpowi (pcimq_val len scale x y /' scale) 3)
      (difference O x y).
  Definition pcimq_meth (len scale : V) : meth V :=
    mkMeth (fun x y => Sc (pcimq_val len scale x y))
      (fun x y => Vec (map (fneg O) (pcimq_gy len scale x y)))
      (fun x y => Vec (pcimq_gy len scale x y))
      (fun x y => let k := pcimq_val len scale x y /' scale in let sc := # 2 *' sq len in
         Sc (scale /' sc *' (# (Z.of_nat (length x)) *' fpowi k 3
             -' # 3 *' fpowi k 5 *' squared_distance O x y /' sc))).
  (** 406-441 [RationalQuadraticKernel] *)
  Definition rq_val (len scale rw : V) (x y : list V) : V :=
    scale *' fpow T (f1 O +' squared_distance O x y /' (# 2 *' rw *' sq len)) (-' rw).
  Definition rq_gy (len scale rw : V) (x y : list V) : list V :=
    map (fun s => (scale *' s /' sq len) *'
           fpow T (f1 O +' squared_distance O x y /' (# 2 *' rw *' sq len)) (-' rw -' f1 O))
      (difference O x y).
  Definition rq_meth (len scale rw : V) : meth V :=
    mkMeth (fun x y => Sc (rq_val len scale rw x y))
      (fun x y => Vec (map (fneg O) (rq_gy len scale rw x y)))
      (fun x y => Vec (rq_gy len scale rw x y))
      (fun x y =>
         let sq_dist := squared_distance O x y in
         let power := rw +' f1 O in
         let div := rw *' sq len in
         let body := f1 O +' sq_dist /' (# 2 *' div) in
         let factor := scale /' sq len in
         let first_term := factor *' fpow T body (-' power) in
         let second_term := -' (factor *' power *' sq_dist /' div) *' fpow T body (-' (power +' f1 O)) in
         Sc (# (Z.of_nat (length x)) *' first_term +' second_term)).
  (** 481-522 [MaternKernel]: no hand-written gradient *)
  Definition matern_term (degree : nat) (body : V) (i : nat) : V :=
    ffact (degree + i) /' (ffact i *' ffact (degree - i)) *' pown (# 2 *' body) (degree - i).
  Definition matern_val (len scale : V) (degree : Z) (x y : list V) : V :=
    let p := Z.to_nat degree in
    let norm := norm2 (difference O x y) in
    let body := fsqrt O (# (2 * degree + 1)) *' norm /' len in
    let factor := sq scale *' fexp T (-' body) *' ffact p /' ffact (2 * p) in
    let summation := if (0 <? degree)%Z then fsum O (map (matern_term p body) (seq 0 (p + 1))) else f1 O in
    factor *' summation.
  (** 556-613 [PeriodicKernel] *)
  Definition per_gy (len scale period : V) (x y : list V) : list V :=
    let sub := difference O x y in let dist := norm2 sub in
    let body := fpi T *' dist /' period in
    map (fun s => (# 4 *' s *' scale *' fpi T /' (dist *' period *' sq len)) *' fsin T body *' fcos T body
           *' fexp T (-' (# 2 /' sq len) *' sq (fsin T body))) sub.
  Definition per_meth (len scale period : V) : meth V :=
    mkMeth
      (fun x y => Sc (scale *' fexp T (# (-2) *' sq (fsin T (fpi T *' norm2 (difference O x y) /' period)) /' sq len)))
      (fun x y => Vec (map (fneg O) (per_gy len scale period x y)))
      (fun x y => Vec (per_gy len scale period x y))
      (fun x y =>
         let sub := difference O x y in let dist := norm2 sub in
         let factor := fpi T /' period in
         let func_body := factor *' dist in
         let output_factor := # 4 *' factor *' scale /' sq len in
         let func_1 := f1 O /' dist in
         let func_2 := fsin T func_body in
         let func_3 := fcos T func_body in
         let func_4 := fexp T (-' (# 2 /' sq len) *' sq func_2) in
         let first_term := func_1 *' func_2 *' func_3 *' func_4 in
         let second_term := map (fun s =>
             let grad_factor := s /' dist in
             -' grad_factor *' sq func_1 *' func_2 *' func_3 *' func_4
             -' grad_factor *' factor *' func_1 *' sq func_2 *' func_4
             +' grad_factor *' factor *' func_1 *' sq func_3 *' func_4
             -' (output_factor *' s *' sq func_1 *' sq func_2 *' sq func_3 *' func_4)) sub in
         Sc (output_factor *' (# (Z.of_nat (length x)) *' first_term +' fdot O second_term sub))).
  (** 693-723 [PoissonKernel] *)
  Definition poisson_gy (index scale : V) (x y : list V) : list V :=
    map (fun s => (# 2 *' scale *' index *' fsin T s) /'
                  sq (f1 O -' # 2 *' index *' fcos T s +' sq index)) (difference O x y).
  Definition poisson_meth (index scale : V) : meth V :=
    mkMeth
      (fun x y => Sc (scale /' (f1 O -' # 2 *' index *' fcos T (norm2 (difference O x y)) +' sq index)))
      (fun x y => Vec (map (fneg O) (poisson_gy index scale x y)))
      (fun x y => Vec (poisson_gy index scale x y))
      (fun x y =>
         let distance := norm2 (difference O x y) in
         let div := f1 O -' # 2 *' index *' fcos T distance +' sq index in
         let first_term := (# 2 *' scale *' index *' fcos T distance) /' sq div in
         let second_term := (# 8 *' scale *' sq index *' sq (fsin T distance)) /' fpowi div 3 in
         Sc (first_term -' second_term)).

  (** *** Compositions *)
  (** base.py:738-760 [AdditiveKernel] *)
  Definition add_meth (a b : meth V) : meth V :=
    mkMeth (fun x y => tadd (m_val a x y) (m_val b x y)) (fun x y => tadd (m_gx a x y) (m_gx b x y))
      (fun x y => tadd (m_gy a x y) (m_gy b x y)) (fun x y => tadd (m_div a x y) (m_div b x y)).
  (** base.py:776-837 [ProductKernel]; [same] is [first_kernel == second_kernel] *)
  Definition prod_meth (same : bool) (a b : meth V) : meth V :=
    mkMeth
      (fun x y => if same then tmap sq (m_val a x y) else tmul (m_val a x y) (m_val b x y))
      (fun x y => if same then tmul (tmul (Sc (# 2)) (m_gx a x y)) (m_val a x y)
                  else tadd (tmul (m_gx a x y) (m_val b x y)) (tmul (m_gx b x y) (m_val a x y)))
      (fun x y => if same then tmul (tmul (Sc (# 2)) (m_gy a x y)) (m_val a x y)
                  else tadd (tmul (m_gy a x y) (m_val b x y)) (tmul (m_gy b x y) (m_val a x y)))
      (fun x y => if same
         then tmul (Sc (# 2)) (tadd (tdot (m_gx a x y) (m_gy a x y)) (tmul (m_val a x y) (m_div a x y)))
         else tadd (tadd (tadd (tdot (m_gx a x y) (m_gy b x y)) (tdot (m_gy a x y) (m_gx b x y)))
                         (tmul (m_val a x y) (m_div b x y)))
                   (tmul (m_val b x y) (m_div a x y))).
  (** base.py:663-699 [PowerKernel] *)
  Definition pow_meth (a : meth V) (n : Z) : meth V :=
    let tpow v m := tmap (fun c => fpowi c m) v in
    mkMeth (fun x y => tpow (m_val a x y) n)
      (fun x y => tmul (tmul (Sc (# n)) (m_gx a x y)) (tpow (m_val a x y) (n - 1)%Z))
      (fun x y => tmul (tmul (Sc (# n)) (m_gy a x y)) (tpow (m_val a x y) (n - 1)%Z))
      (fun x y => let compute := m_val a x y in
         tmul (Sc (# n))
           (tadd (tmul (tpow compute (n - 1)%Z) (m_div a x y))
                 (tmul (tmul (Sc (# (n - 1))) (tpow compute (n - 2)%Z)) (tdot (m_gx a x y) (m_gy a x y))))).
  (** scalar_valued.py:782-790 [SteinKernel.compute_elementwise] *)
  Definition stein_val (a : meth V) (score : list V -> list V) (x y : list V) : ten V :=
    let k := m_val a x y in
    let score_x := Vec (score x) in
    let score_y := Vec (score y) in
    tadd (tadd (tadd (m_div a x y) (tmatmul (m_gx a x y) score_y)) (tmatmul (m_gy a x y) score_x))
         (tmatmul (tmul k score_x) score_y).

  (** *** Inherited methods.  [jgrad f x] is [jax.grad(f)(x)] of a scalar function. *)
  Variable jgrad : (list V -> V) -> list V -> list V.
  Definition unsc (t : ten V) : V := match t with Sc v => v | _ => fnan O end.
  Definition unvec (t : ten V) : list V := match t with Vec l => l | _ => [] end.
  (** base.py:295, 328: [jax.grad] raises unless the output is a scalar *)
  Definition auto_gx (val : list V -> list V -> ten V) (x y : list V) : ten V :=
    match val x y with Sc _ => Vec (jgrad (fun x' => unsc (val x' y)) x) | _ => TErr end.
  Definition auto_gy (val : list V -> list V -> ten V) (x y : list V) : ten V :=
    match val x y with Sc _ => Vec (jgrad (fun y' => unsc (val x y')) y) | _ => TErr end.
  (** base.py:389-390: trace of the reverse-mode Jacobian of [grad_y_elementwise] in x *)
  Definition auto_div (gy : list V -> list V -> ten V) (x y : list V) : ten V :=
    match gy x y with
    | Vec l => Sc (fsum O (map (fun i =>
                 nth i (jgrad (fun x' => nth i (unvec (gy x' y)) (f0 O)) x) (f0 O)) (seq 0 (length l))))
    | _ => TErr
    end.
  Definition auto_meth (val : list V -> list V -> ten V) : meth V :=
    mkMeth val (auto_gx val) (auto_gy val) (auto_div (auto_gy val)).

  (** [keq] is Equinox's [==] on kernel objects *)
  Variable keq : kern V -> kern V -> bool.
  Fixpoint methods (k : kern V) : meth V :=
    match k with
    | KConst c => const_meth c
    | KLinear s c => linear_meth s c
    | KPoly s c d => poly_meth s c d
    | KExp l s => exp_meth l s
    | KLap l s => lap_meth l s
    | KSE l s => se_meth l s
    | KPCIMQ l s => pcimq_meth l s
    | KRQ l s a => rq_meth l s a
    | KMatern l s p => auto_meth (fun x y => Sc (matern_val l s p x y))
    | KPer l s p => per_meth l s p
    | KPoisson i s => poisson_meth i s
    | KAdd a b => add_meth (methods a) (methods b)
    | KProd a b => prod_meth (keq a b) (methods a) (methods b)
    | KPow a n => pow_meth (methods a) n
    | KStein a score => auto_meth (stein_val (methods a) score)
    end.

  (** *** Matrix methods *)
  (** [jnp.atleast_2d] of the accepted inputs *)
  Inductive input := IScalar (v : V) | IPoint (v : list V) | IPoints (m : list (list V)).
  Definition atleast_2d (i : input) : list (list V) :=
    match i with IScalar v => [[v]] | IPoint v => [v] | IPoints m => m end.
  (** base.py:155, 217, 262, 368 *)
  Definition k_compute (k : kern V) (x y : input) : list (list (ten V)) :=
    pairwise (m_val (methods k)) (atleast_2d x) (atleast_2d y).
  Definition k_grad_x (k : kern V) (x y : input) : list (list (ten V)) :=
    pairwise (m_gx (methods k)) (atleast_2d x) (atleast_2d y).
  Definition k_grad_y (k : kern V) (x y : input) : list (list (ten V)) :=
    pairwise (m_gy (methods k)) (atleast_2d x) (atleast_2d y).
  Definition k_divergence (k : kern V) (x y : input) : list (list (ten V)) :=
    pairwise (m_div (methods k)) (atleast_2d x) (atleast_2d y).

  (** *** Constructors *)
  Definition le0 (v : V) : bool := fleb O v (f0 O).
  Definition lt0 (v : V) : bool := fltb O v (f0 O).
  (** the [__check_init__] methods; integer-typed fields are integers here *)
  Definition check_init (k : kern V) : result (kern V) :=
    let bad := match k with
      | KConst c => lt0 c                                        (* base.py:597-603 *)
      | KLinear s c => le0 s || lt0 c                            (* 45-50 *)
      | KPoly s c d => le0 s || lt0 c || (d <? 2)%Z              (* 88-96 *)
      | KExp l s | KLap l s | KSE l s | KPCIMQ l s => le0 l || le0 s
      | KRQ l s a => le0 l || le0 s || lt0 a                     (* 397-404 *)
      | KMatern l s p => le0 l || le0 s || (p <? 0)%Z            (* 472-479 *)
      | KPer l s p => le0 l || le0 s                             (* 549-554 *)
      | KPoisson i s => le0 i || fleb O (f1 O) i || le0 s        (* 686-691 *)
      | KPow a n => (n <? 1)%Z                                   (* base.py:654-661 *)
      | KAdd _ _ | KProd _ _ | KStein _ _ => false               (* operands are kernels *)
      end in
    if bad then Err ValueError else Ok k.
  (** base.py:70-112: [__add__]/[__radd__], [__mul__]/[__rmul__], [__pow__] *)
  Definition k_add (k : kern V) (o : operand V) : result (kern V) :=
    match o with
    | ONumber c => do c' <- check_init (KConst c); Ok (KAdd k c')
    | OKernel k' => Ok (KAdd k k')
    | OtherOperand => Err ValueError
    end.
  Definition k_mul (k : kern V) (o : operand V) : result (kern V) :=
    match o with
    | ONumber c => do c' <- check_init (KConst c); Ok (KProd k c')
    | OKernel k' => Ok (KProd k k')
    | OtherOperand => Err ValueError
    end.
  (** [None] is a power that is not an int *)
  Definition k_pow (k : kern V) (power : option Z) : result (kern V) :=
    match power with Some n => check_init (KPow k n) | None => Err ValueError end.
  (** scalar_valued.py:638-656 *)
  Definition locally_periodic (pl ps p sl ss : V) : result (kern V) :=
    do a <- check_init (KPer pl ps p); do b <- check_init (KSE sl ss); Ok (KProd a b).
  (** scalar_valued.py:296-315 [get_sqrt_kernel] *)
  Definition se_sqrt_kernel (len scale : V) (dim : nat) : result (kern V) :=
    check_init (KSE (len /' fsqrt O (# 2))
      (fsqrt O scale *' fpow T (# 2 /' (fpi T *' sq len)) (# (Z.of_nat dim) /' # 4))).
End KernelModel.
