(** * Optimizers (package optimizers), learning-rate decay and gradient clipping

    Definitions only.  Matrices are those of ArithModel over the reals; [None] in
    [option] is a panic of a matrix operation.  In-place updates return the new
    matrix; the state's matrices, the parameter and its gradient are distinct
    objects (they are allocated by NewMatrix/NewDense, Clone and AccGrad). *)
From Coq Require Import Reals List Arith ZArith Bool.
From Verif Require Import DenseModel ArithModel GradModel.
Import ListNotations.
Open Scope R_scope.

(** The outcome of OptimizeParams. *)
Inductive outcome (A : Type) := OK (a : A) | Err | Panic.
Arguments OK {A} a. Arguments Err {A}. Arguments Panic {A}.

Definition m_sub_in : mat -> mat -> option mat := mat_binary_in_place 0 Rminus.
Definition m_pms (d m : mat) (n : R) : option mat := prod_matrix_scalar_in_place 0 Rmult d m n.
Definition m_sqrt : mat -> mat := m_unary sqrt.
(** NewMatrix(WithShape(r, c)): zeros *)
Definition m_zeros (r c : nat) : mat := mkDense r c (repeat 0 (r * c)).

(** ** State kept on the parameter (nn/param.go:9-12, field State)

    The concrete types are sgd.State (sgd.go:45-50; nil buffers are [None]),
    adam.State and lamb.State (adam.go:90-96, lamb.go:70-76), radam.State
    (radam.go:69-75), adagrad.State (adagrad.go:32-34), rmsprop.State
    (rmsprop.go:56-58).  Scratch buffers that are overwritten before they are read
    (Buf1, Buf2, Buf3) only contribute their shape. *)
Record sgd_state := mkSgd { sg_v : mat; sg_buf : option mat; sg_vprev : option mat; sg_vtmp : option mat }.
Record moments := mkMom { mo_1 : mat; mo_2 : mat; mo_b1 : mat; mo_b2 : mat; mo_b3 : mat }.
Inductive ostate :=
| SgdState (s : sgd_state) | AdamState (s : moments) | LambState (s : moments) | RadamState (s : moments)
| AdagradState (m : mat) | RmspropState (v : mat).

(** nn.Param: value, gradient (nil is [None]), state *)
Record param := mkParam { p_value : mat; p_grad : option mat; p_state : option ostate }.

(** The common frame of all OptimizeParams methods (sgd.go:110-124, adam.go:165-186,
    radam.go:139-153, lamb.go:155-169, adagrad.go:76-90, rmsprop.go:81-95): create the
    state if there is none, fail if it is of another type, subtract the update from
    the value, clear the gradient.  A nil gradient panics. *)
Definition optimize (St : Type) (unwrap : ostate -> option St) (wrap : St -> ostate) (fresh_state : mat -> St)
    (update : mat -> St -> mat -> option (mat * St)) (p : param) : outcome param :=
  match (match p_state p with None => Some (fresh_state (p_value p)) | Some s => unwrap s end) with
  | None => Err
  | Some s =>
      match p_grad p with
      | None => Panic
      | Some g =>
          match update g s (p_value p) with
          | None => Panic
          | Some (delta, s') =>
              match m_sub_in (p_value p) delta with
              | None => Panic
              | Some v => OK (mkParam v None (Some (wrap s')))
              end
          end
      end
  end.

(** ** SGD (sgd/sgd.go) *)
Section Sgd.
Variables (alpha mu : R) (nesterov : bool).

(** newStateFor, sgd.go:56-79 *)
Definition sgd_fresh (v : mat) : sgd_state :=
  let z := m_zeros (rows v) (cols v) in
  if Ris0 mu then mkSgd z None None None
  else if negb nesterov then mkSgd z (Some z) None None
  else mkSgd z (Some z) (Some z) (Some z).

(** calculateParamUpdate, sgd.go:81-108; a nil buffer panics *)
Definition sgd_update (g : mat) (s : sgd_state) (_ : mat) : option (mat * sgd_state) :=
  if Ris0 mu then
    bind (m_pms (sg_v s) g alpha) (fun v => Some (v, mkSgd v (sg_buf s) (sg_vprev s) (sg_vtmp s)))
  else if nesterov then
    bind (sg_buf s) (fun buf => bind (m_pms buf g alpha) (fun buf =>
    bind (sg_vprev s) (fun vprev => bind (m_pms vprev (sg_v s) mu) (fun vprev =>
    let v := m_prods_in (sg_v s) mu in
    bind (m_add_in v buf) (fun v =>
    bind (sg_vtmp s) (fun vtmp => bind (m_pms vtmp v (1 + mu)) (fun vtmp =>
    bind (m_sub_in vtmp vprev) (fun vtmp =>
    Some (vtmp, mkSgd v (Some buf) (Some vprev) (Some vtmp))))))))))
  else
    bind (sg_buf s) (fun buf => bind (m_pms buf g alpha) (fun buf =>
    let v := m_prods_in (sg_v s) mu in
    bind (m_add_in v buf) (fun v => Some (v, mkSgd v (Some buf) (sg_vprev s) (sg_vtmp s))))).

Definition sgd_optimize : param -> outcome param :=
  optimize sgd_state (fun s => match s with SgdState s => Some s | _ => None end) SgdState sgd_fresh sgd_update.
End Sgd.

(** ** Moving averages shared by Adam, RAdam and LAMB *)
Definition moments_fresh (v : mat) : moments :=
  let z := m_zeros (rows v) (cols v) in mkMom z z z z z.
(** v = v*beta1 + grads*(1-beta1): adam.go:150-154, lamb.go:133-137, radam.go:112-116 *)
Definition update_first (b1 : R) (g : mat) (s : moments) : option moments :=
  let v := m_prods_in (mo_1 s) b1 in
  bind (m_pms (mo_b1 s) g (1 - b1)) (fun buf => bind (m_add_in v buf) (fun v =>
  Some (mkMom v (mo_2 s) buf (mo_b2 s) (mo_b3 s)))).
(** m = m*beta2 + (grads*grads)*(1-beta2): adam.go:157-162, lamb.go:140-145, radam.go:119-124 *)
Definition update_second (b2 : R) (g : mat) (s : moments) : option moments :=
  let m := m_prods_in (mo_2 s) b2 in
  bind (m_prod g g) (fun sq => bind (m_pms (mo_b2 s) sq (1 - b2)) (fun buf => bind (m_add_in m buf) (fun m =>
  Some (mkMom (mo_1 s) m (mo_b1 s) buf (mo_b3 s))))).
Definition set_b3 (s : moments) (b : mat) : moments := mkMom (mo_1 s) (mo_2 s) (mo_b1 s) (mo_b2 s) b.

(** updateAlpha (adam.go:117-120, lamb.go:95-98) at time step ts *)
Definition adam_alpha (step b1 b2 : R) (ts : nat) : R := step * sqrt (1 - b2 ^ ts) / (1 - b1 ^ ts).

(** ** Adam and AdamW (adam/adam.go) *)
Section Adam.
Variables (alpha b1 b2 eps lambda : R).
(** calculateParamUpdate, calculateParamUpdateW (adam.go:125-147); adamw is
    [c.Lambda != 0] (adam.go:82) *)
Definition adam_update (g : mat) (s : moments) (w : mat) : option (mat * moments) :=
  bind (update_first b1 g s) (fun s => bind (update_second b2 g s) (fun s =>
  let buf := m_adds_in (m_sqrt (mo_2 s)) eps in
  bind (m_div (mo_1 s) buf) (fun d =>
  bind (if Ris0 lambda then Some d else m_add_in d (m_prods w lambda)) (fun d =>
  bind (m_pms (mo_b3 s) d alpha) (fun b3 => Some (b3, set_b3 s b3)))))).
Definition adam_optimize : param -> outcome param :=
  optimize moments (fun s => match s with AdamState s => Some s | _ => None end) AdamState moments_fresh adam_update.
End Adam.

(** ** LAMB (lamb/lamb.go) *)
(** norm, lamb.go:147-151 *)
Definition lamb_norm (m : mat) : option R := bind (m_prod m m) (fun p => Some (sqrt (mat_sum 0 Rplus p))).
Section Lamb.
Variables (alpha b1 b2 eps lambda : R).
(** calculateParamUpdate, lamb.go:109-130 *)
Definition lamb_update (g : mat) (s : moments) (w : mat) : option (mat * moments) :=
  bind (update_first b1 g s) (fun s => bind (update_second b2 g s) (fun s =>
  let buf := m_adds_in (m_sqrt (mo_2 s)) eps in
  bind (m_div (mo_1 s) buf) (fun d =>
  bind (if Ris0 lambda then Some d else m_add_in d (m_prods w lambda)) (fun d =>
  bind (lamb_norm w) (fun wn => bind (lamb_norm d) (fun dn =>
  let trust := if Ris0 wn || Ris0 dn then 1 else wn / dn in
  bind (m_pms (mo_b3 s) d (alpha * trust)) (fun b3 => Some (b3, set_b3 s b3)))))))).
Definition lamb_optimize : param -> outcome param :=
  optimize moments (fun s => match s with LambState s => Some s | _ => None end) LambState moments_fresh lamb_update.
End Lamb.

(** ** RAdam (radam/radam.go) *)
(** New, radam.go:59-66 *)
Definition ro_max (b2 : R) : R := 2 / (1 - b2) - 1.
(** calcAlpha, radam.go:126-137 *)
Definition radam_ro (b2 : R) (ts : nat) : R := ro_max b2 - 2 * INR ts * b2 ^ ts / (1 - b2 ^ ts).
Definition radam_rect (b2 : R) (ts : nat) : R :=
  let ro := radam_ro b2 ts in
  if Rltb 4 ro then sqrt ((ro - 4) * (ro - 2) * ro_max b2 / ((ro_max b2 - 4) * (ro_max b2 - 2) * ro)) else 1.
Definition radam_alpha (step b1 b2 : R) (ts : nat) : R := step * radam_rect b2 ts * sqrt (1 - b2 ^ ts) / (1 - b1 ^ ts).
Section Radam.
Variables (step b1 b2 eps : R) (ts : nat).
(** calculateParamUpdate, radam.go:100-109 *)
Definition radam_update (g : mat) (s : moments) (_ : mat) : option (mat * moments) :=
  bind (update_first b1 g s) (fun s => bind (update_second b2 g s) (fun s =>
  let buf := m_adds_in (m_sqrt (mo_2 s)) (eps * sqrt (1 - b2 ^ ts)) in
  bind (m_div (mo_1 s) buf) (fun d =>
  bind (m_pms (mo_b3 s) d (radam_alpha step b1 b2 ts)) (fun b3 => Some (b3, set_b3 s b3))))).
Definition radam_optimize : param -> outcome param :=
  optimize moments (fun s => match s with RadamState s => Some s | _ => None end) RadamState moments_fresh radam_update.
End Radam.

(** ** AdaGrad (adagrad/adagrad.go:71-74) *)
Section Adagrad.
Variables (lr eps : R).
Definition adagrad_update (g : mat) (m : mat) (_ : mat) : option (mat * mat) :=
  bind (m_prod g g) (fun sq => bind (m_add_in m sq) (fun m =>
  bind (m_div g (m_adds_in (m_sqrt m) eps)) (fun d => Some (m_prods_in d lr, m)))).
Definition adagrad_optimize : param -> outcome param :=
  optimize mat (fun s => match s with AdagradState s => Some s | _ => None end) AdagradState
    (fun v => m_zeros (rows v) (cols v)) adagrad_update.
End Adagrad.

(** ** RMSProp (rmsprop/rmsprop.go:68-79) *)
Section Rmsprop.
Variables (lr eps decay : R).
Definition rmsprop_update (g : mat) (v : mat) (_ : mat) : option (mat * mat) :=
  let v := m_prods_in v decay in
  bind (m_prod g g) (fun buf => let buf := m_prods_in buf (1 - decay) in
  bind (m_add_in v buf) (fun v => let buf2 := m_adds_in (m_sqrt v) eps in
  bind (m_div g buf2) (fun d => Some (m_prods_in d lr, v)))).
Definition rmsprop_optimize : param -> outcome param :=
  optimize mat (fun s => match s with RmspropState s => Some s | _ => None end) RmspropState
    (fun v => m_zeros (rows v) (cols v)) rmsprop_update.
End Rmsprop.

(** ** Learning-rate decay *)
(** Exponential.Decay (decay/exponential/exponential.go:34-39).  [None] stands for a
    result that is not a real number (division by zero: infinity or NaN). *)
Definition exp_decay (final : R) (times : Z) (lr : R) (t : Z) : option R :=
  if (1 <? t)%Z && Rltb final lr then
    if (times - t + 1 =? 0)%Z then None
    else Some (exp ((IZR (times - t) * ln lr + ln final) / IZR (times - t + 1)))
  else Some lr.
(** Hyperbolic.Decay (decay/hyperbolic/hyperbolic.go:31-36) *)
Definition hyp_decay (init final rate : R) (lr : R) (t : Z) : R :=
  if (1 <? t)%Z && Rltb 0 rate && Rltb final lr then init / (1 + rate * IZR t) else lr.

(** ** Gradient clipping (gradclipper/clipper.go) *)
(** collectGradients, clipper.go:79-88: a parameter without gradient contributes a
    nil matrix *)
Definition collect (ps : list param) : list (option mat) := map p_grad ps.
(** the gradients changed in place *)
Definition put_grads (ps : list param) (gs : list mat) : list param :=
  map (fun pg => mkParam (p_value (fst pg)) (Some (snd pg)) (p_state (fst pg))) (combine ps gs).
Fixpoint all_some {A} (l : list (option A)) : option (list A) :=
  match l with [] => Some [] | a :: l => bind a (fun a => bind (all_some l) (fun l => Some (a :: l))) end.
Fixpoint map_opt {A B} (f : A -> option B) (l : list A) : option (list B) :=
  match l with [] => Some [] | a :: l => bind (f a) (fun a => bind (map_opt f l) (fun l => Some (a :: l))) end.
Definition m_clip (m : mat) (lo hi : R) : option mat := clip_in_place 0 Rltb m lo hi.
(** ValueClipper.ClipGrads, clipper.go:26-30: a method call on a nil matrix panics *)
Definition value_clip (value : R) (ps : list param) : option (list param) :=
  bind (all_some (collect ps)) (fun gs => bind (map_opt (fun g => m_clip g (- value) value) gs) (fun gs => Some (put_grads ps gs))).
(** math.Pow x y for x >= 0 and y > 0 *)
Definition pow (x y : R) : R := if Ris0 x then 0 else Rpower x y.
(** calculateTotalNorm, clipper.go:46-60; [None] for the norm type is +Inf *)
Definition total_norm (norm_type : option R) (gs : list mat) : option R :=
  match norm_type with
  | None => fold_left (fun acc g => bind acc (fun acc => bind (mat_max Rltb (m_unary Rabs g)) (fun mx => Some (Rmax mx acc)))) gs (Some 0)
  | Some q => Some (pow (fold_left (fun s g => s + mat_sum 0 Rplus (m_unary (fun v => pow v q) (m_unary Rabs g))) gs 0) (1 / q))
  end.
(** NormClipper.ClipGradients, clipper.go:64-76; validateNormType, 39-43 *)
Definition norm_clip (max_norm : R) (norm_type : option R) (ps : list param) : option (list param) :=
  guard (match norm_type with None => true | Some q => negb (Rleb q 1) end)
  (bind (all_some (collect ps)) (fun gs => bind (total_norm norm_type gs) (fun n =>
   let k := max_norm / (n + 1e-7) in
   Some (if Rltb k 1 then put_grads ps (map (fun g => m_prods_in g k) gs) else ps)))).
