(** * Optimizers in floating point (package optimizers)

    The OptimizeParams methods of OptModel.v again, over the IEEE binary32 and binary64 formats, with every rounding,
    overflow, signed zero, infinity and NaN.  Definitions only.  The settings of an optimizer and its time-dependent
    learning rate are float64; a matrix operation converts them to the type d of the matrix.  The matrices of the state have
    the element type of the parameter (the optimizers generic in T create them with NewDense[T]; an optimizer of another
    type than the parameter is not modelled).  Element operations are those of the pure Go kernels; PropsAsm.v proves that the
    amd64 kernels compute the same elements.  As in NumModel.v no multiplication and addition are fused (as the compiler may
    do on arm64 but not on amd64). *)
From Coq Require Import List ZArith Bool.
From Flocq Require Import Core BinarySingleNaN.
From Verif Require Import DenseModel ArithModel FloatModel NumModel.
Import ListNotations.

Definition bind {A B} (o : option A) (f : A -> option B) : option B := match o with Some a => f a | None => None end.
(** math.Sqrt is correctly rounded *)
Definition sqrt64 (x : val F64) : val F64 := @Bsqrt (prec F64) (emax F64) (prec_pos F64) (prec_emax F64) mode_NE x.
(** Go's v == 0 *)
Definition is0 (v : val F64) : bool := Beqb v fzero.

(** The outcome of OptimizeParams. *)
Inductive outcome (A : Type) := OK (a : A) | Err | Panic.
Arguments OK {A} a. Arguments Err {A}. Arguments Panic {A}.

Section Opt.
Variable d : dtype.
Notation mat := (dense (val d)).
Notation at_type := (conv F64 d).

(** ** Matrix operations (dense.go:432-449, 467-479, 501-516, 549-571, 591-637, 640-657, 932-946; mathfunctions.go:66-69) *)
Definition m_add_in : mat -> mat -> option mat := mat_binary_in_place fzero fadd.
Definition m_sub_in : mat -> mat -> option mat := mat_binary_in_place fzero fsub.
Definition m_div : mat -> mat -> option mat := mat_binary fzero fdiv.
Definition m_prod : mat -> mat -> option mat := mat_prod fzero fmul.
Definition m_adds_in (m : mat) (n : val F64) : mat := mat_const_in_place fzero fadd m (at_type n).
Definition m_prods (m : mat) (n : val F64) : mat := mat_const fzero fmul m (at_type n).
Definition m_prods_in (m : mat) (n : val F64) : mat := mat_const_in_place fzero fmul m (at_type n).
Definition m_pms (o m : mat) (n : val F64) : option mat := prod_matrix_scalar_in_place fzero fmul o m (at_type n).
Definition elem_sqrt (x : val d) : val d := conv F64 d (sqrt64 (conv d F64 x)).
Definition m_sqrt (m : mat) : mat := mat_unary fzero elem_sqrt m.
(** NewMatrix(WithShape(r, c)): zeros *)
Definition m_zeros (r c : nat) : mat := mkDense r c (repeat fzero (r * c)).

(** ** State kept on the parameter: as in OptModel.v *)
Record sgd_state := mkSgd { sg_v : mat; sg_buf : option mat; sg_vprev : option mat; sg_vtmp : option mat }.
Record moments := mkMom { mo_1 : mat; mo_2 : mat; mo_b1 : mat; mo_b2 : mat; mo_b3 : mat }.
Inductive ostate :=
| SgdState (s : sgd_state) | AdamState (s : moments) | RadamState (s : moments) | AdagradState (m : mat) | RmspropState (v : mat) | LambState (s : moments).
Record param := mkParam { p_value : mat; p_grad : option mat; p_state : option ostate }.

(** The common frame of the OptimizeParams methods (sgd.go:110-124, adam.go:165-186, radam.go:139-153, adagrad.go:76-90,
    rmsprop.go:81-95) *)
Definition optimize (St : Type) (unwrap : ostate -> option St) (wrap : St -> ostate) (fresh_state : mat -> St)
    (update : mat -> St -> mat -> option (mat * St)) (p : param) : outcome param :=
  match (match p_state p with None => Some (fresh_state (p_value p)) | Some s => unwrap s end) with
  | None => Err
  | Some s =>
      match p_grad p with
      | None => Panic
      | Some g =>
          match update g s (p_value p) with
          | None => Panic
          | Some (delta, s') =>
              match m_sub_in (p_value p) delta with
              | None => Panic
              | Some v => OK (mkParam v None (Some (wrap s')))
              end
          end
      end
  end.

(** ** SGD (sgd/sgd.go) *)
Section Sgd.
Variables (alpha mu : val F64) (nesterov : bool).
(** newStateFor, sgd.go:56-79 *)
Definition sgd_fresh (v : mat) : sgd_state :=
  let z := m_zeros (rows v) (cols v) in
  if is0 mu then mkSgd z None None None
  else if negb nesterov then mkSgd z (Some z) None None
  else mkSgd z (Some z) (Some z) (Some z).
(** calculateParamUpdate, sgd.go:81-108; a nil buffer panics *)
Definition sgd_update (g : mat) (s : sgd_state) (_ : mat) : option (mat * sgd_state) :=
  if is0 mu then
    bind (m_pms (sg_v s) g alpha) (fun v => Some (v, mkSgd v (sg_buf s) (sg_vprev s) (sg_vtmp s)))
  else if nesterov then
    bind (sg_buf s) (fun buf => bind (m_pms buf g alpha) (fun buf =>
    bind (sg_vprev s) (fun vprev => bind (m_pms vprev (sg_v s) mu) (fun vprev =>
    let v := m_prods_in (sg_v s) mu in
    bind (m_add_in v buf) (fun v =>
    bind (sg_vtmp s) (fun vtmp => bind (m_pms vtmp v (fadd fone mu)) (fun vtmp =>
    bind (m_sub_in vtmp vprev) (fun vtmp =>
    Some (vtmp, mkSgd v (Some buf) (Some vprev) (Some vtmp))))))))))
  else
    bind (sg_buf s) (fun buf => bind (m_pms buf g alpha) (fun buf =>
    let v := m_prods_in (sg_v s) mu in
    bind (m_add_in v buf) (fun v => Some (v, mkSgd v (Some buf) (sg_vprev s) (sg_vtmp s))))).
Definition sgd_optimize : param -> outcome param :=
  optimize sgd_state (fun s => match s with SgdState s => Some s | _ => None end) SgdState sgd_fresh sgd_update.
End Sgd.

(** ** Moving averages shared by Adam and RAdam *)
Definition moments_fresh (v : mat) : moments :=
  let z := m_zeros (rows v) (cols v) in mkMom z z z z z.
(** v = v*beta1 + grads*(1-beta1): adam.go:150-154, radam.go:112-116 *)
Definition update_first (b1 : val F64) (g : mat) (s : moments) : option moments :=
  let v := m_prods_in (mo_1 s) b1 in
  bind (m_pms (mo_b1 s) g (fsub fone b1)) (fun buf => bind (m_add_in v buf) (fun v =>
  Some (mkMom v (mo_2 s) buf (mo_b2 s) (mo_b3 s)))).
(** m = m*beta2 + (grads*grads)*(1-beta2): adam.go:157-162, radam.go:119-124 *)
Definition update_second (b2 : val F64) (g : mat) (s : moments) : option moments :=
  let m := m_prods_in (mo_2 s) b2 in
  bind (m_prod g g) (fun sq => bind (m_pms (mo_b2 s) sq (fsub fone b2)) (fun buf => bind (m_add_in m buf) (fun m =>
  Some (mkMom (mo_1 s) m (mo_b1 s) buf (mo_b3 s))))).
Definition set_b3 (s : moments) (b : mat) : moments := mkMom (mo_1 s) (mo_2 s) (mo_b1 s) (mo_b2 s) b.

(** ** Adam and AdamW (adam/adam.go) *)
Section Adam.
Variables (alpha b1 b2 eps lambda : val F64).
(** calculateParamUpdate, calculateParamUpdateW (adam.go:125-147); adamw is [c.Lambda != 0] (adam.go:82) *)
Definition adam_update (g : mat) (s : moments) (w : mat) : option (mat * moments) :=
  bind (update_first b1 g s) (fun s => bind (update_second b2 g s) (fun s =>
  let buf := m_adds_in (m_sqrt (mo_2 s)) eps in
  bind (m_div (mo_1 s) buf) (fun q =>
  bind (if is0 lambda then Some q else m_add_in q (m_prods w lambda)) (fun q =>
  bind (m_pms (mo_b3 s) q alpha) (fun b3 => Some (b3, set_b3 s b3)))))).
Definition adam_optimize : param -> outcome param :=
  optimize moments (fun s => match s with AdamState s => Some s | _ => None end) AdamState moments_fresh adam_update.
End Adam.

(** ** RAdam (radam/radam.go) *)
Section Radam.
(** alpha is what calcAlpha (radam.go:126-137) gives, root is sqrtB2T (radam.go:103) *)
Variables (alpha root b1 b2 eps : val F64).
(** calculateParamUpdate, radam.go:100-109 *)
Definition radam_update (g : mat) (s : moments) (_ : mat) : option (mat * moments) :=
  bind (update_first b1 g s) (fun s => bind (update_second b2 g s) (fun s =>
  let buf := m_adds_in (m_sqrt (mo_2 s)) (fmul eps root) in
  bind (m_div (mo_1 s) buf) (fun q =>
  bind (m_pms (mo_b3 s) q alpha) (fun b3 => Some (b3, set_b3 s b3))))).
Definition radam_optimize : param -> outcome param :=
  optimize moments (fun s => match s with RadamState s => Some s | _ => None end) RadamState moments_fresh radam_update.
End Radam.

(** ** AdaGrad (adagrad/adagrad.go:71-74) *)
Section Adagrad.
Variables (lr eps : val F64).
Definition adagrad_update (g : mat) (m : mat) (_ : mat) : option (mat * mat) :=
  bind (m_prod g g) (fun sq => bind (m_add_in m sq) (fun m =>
  bind (m_div g (m_adds_in (m_sqrt m) eps)) (fun q => Some (m_prods_in q lr, m)))).
Definition adagrad_optimize : param -> outcome param :=
  optimize mat (fun s => match s with AdagradState s => Some s | _ => None end) AdagradState
    (fun v => m_zeros (rows v) (cols v)) adagrad_update.
End Adagrad.

(** ** RMSProp (rmsprop/rmsprop.go:68-79) *)
Section Rmsprop.
Variables (lr eps decay : val F64).
Definition rmsprop_update (g : mat) (v : mat) (_ : mat) : option (mat * mat) :=
  let v := m_prods_in v decay in
  bind (m_prod g g) (fun buf => let buf := m_prods_in buf (fsub fone decay) in
  bind (m_add_in v buf) (fun v => let buf2 := m_adds_in (m_sqrt v) eps in
  bind (m_div g buf2) (fun q => Some (m_prods_in q lr, v)))).
Definition rmsprop_optimize : param -> outcome param :=
  optimize mat (fun s => match s with RmspropState s => Some s | _ => None end) RmspropState
    (fun v => m_zeros (rows v) (cols v)) rmsprop_update.
End Rmsprop.
End Opt.

(** ** The learning rate at a time step *)
Section Rates.
Variable m : libm.
Infix "+" := fadd.
Infix "-" := fsub.
Infix "*" := fmul.
Infix "/" := fdiv.
(** float64(o.TimeStep): exact below 2^53 *)
Definition of_step (ts : nat) : val F64 := lit (Z.of_nat ts) 0.
(** updateAlpha (adam.go:117-120, lamb.go:95-98) *)
Definition adam_alpha (step b1 b2 : val F64) (ts : nat) : val F64 :=
  step * sqrt64 (fone - Pow m b2 (of_step ts)) / (fone - Pow m b1 (of_step ts)).
(** New, radam.go:59-66 *)
Definition ro_max (b2 : val F64) : val F64 := lit 2 0 / (fone - b2) - fone.
(** sqrtB2T (radam.go:103) and calcAlpha (radam.go:126-137) *)
Definition radam_root (b2 : val F64) (ts : nat) : val F64 := sqrt64 (fone - Pow m b2 (of_step ts)).
Definition radam_alpha (step b1 b2 : val F64) (ts : nat) : val F64 :=
  let b1T := Pow m b1 (of_step ts) in
  let b2T := Pow m b2 (of_step ts) in
  let ro := ro_max b2 - lit 2 0 * of_step ts * b2T / (fone - b2T) in
  let rect := if flt (lit 4 0) ro
              then sqrt64 ((ro - lit 4 0) * (ro - lit 2 0) * ro_max b2 / ((ro_max b2 - lit 4 0) * (ro_max b2 - lit 2 0) * ro))
              else fone in
  step * rect * sqrt64 (fone - b2T) / (fone - b1T).
End Rates.
