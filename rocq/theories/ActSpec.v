(** * What an activation is: its number, its name, its parameters and its function *)
From Coq Require Import Reals List Bool ZArith String.
Import ListNotations.
Open Scope R_scope.

Record act := mkAct { number : Z; name : string; arity : nat; func : list R -> R -> R }.
Arguments mkAct _%Z _%string _%nat _.
Definition p0 (ps : list R) : R := nth 0 ps 0.
Definition p1 (ps : list R) : R := nth 1 ps 0.
Definition logistic (v : R) : R := 1 / (1 + exp (- v)).
(** the piecewise functions: [upto t a b] is a up to t and b above it *)
Definition upto (t : R) (a b : R -> R) (v : R) : R := if Rle_dec v t then a v else b v.
Definition id (v : R) : R := v.

(** the activations that act on each entry by itself *)
Definition entrywise : list act :=
  [ mkAct 0 "Identity" 0 (fun _ v => v);
    mkAct 1 "Tan" 0 (fun _ => tan);
    mkAct 2 "Tanh" 0 (fun _ => tanh);
    mkAct 3 "Sigmoid" 0 (fun _ => logistic);
    mkAct 4 "HardSigmoid" 0 (fun _ v => Rmax 0 (Rmin 1 (v / 5 + 1 / 2)));
    mkAct 5 "HardTanh" 0 (fun _ v => Rmax (-1) (Rmin 1 v));
    mkAct 6 "Softsign" 0 (fun _ v => v / (1 + Rabs v));
    mkAct 7 "ReLU" 0 (fun _ v => Rmax 0 v);
    mkAct 8 "CELU" 1 (fun ps => upto 0 (fun v => p0 ps * (exp (v / p0 ps) - 1)) id);
    mkAct 9 "GELU" 0 (fun _ v => v / 2 * (1 + tanh (sqrt (2 / PI) * (v + 44715 / 1000000 * v ^ 3))));
    mkAct 10 "ELU" 1 (fun ps => upto 0 (fun v => p0 ps * (exp v - 1)) id);
    mkAct 11 "PositiveELU" 0 (fun _ => upto 0 exp (fun v => v + 1));
    mkAct 12 "SwishB" 1 (fun ps v => v * logistic (p0 ps * v));
    mkAct 13 "Swish" 0 (fun _ v => v * logistic v);
    mkAct 14 "SiLU" 0 (fun _ v => v * logistic v);
    mkAct 15 "Mish" 0 (fun _ v => v * tanh (ln (1 + exp v)));
    mkAct 16 "LeakyReLU" 1 (fun ps => upto 0 (fun v => p0 ps * v) id);
    mkAct 17 "SELU" 2 (fun ps v => p1 ps * upto 0 (fun v => p0 ps * (exp v - 1)) id v);
    mkAct 18 "SoftPlus" 2 (fun ps => upto (p1 ps) (fun v => ln (1 + exp (p0 ps * v)) / p0 ps) id);
    mkAct 19 "SoftShrink" 1 (fun ps v => if Rlt_dec v (- p0 ps) then v + p0 ps else upto (p0 ps) (fun _ => 0) (fun v => v - p0 ps) v);
    mkAct 20 "Threshold" 2 (fun ps => upto (p0 ps) (fun _ => p1 ps) id) ].
(** all 24 names with their numbers *)
Definition names : list (Z * string) :=
  map (fun a => (number a, name a)) entrywise ++ [(21, "Softmax"); (22, "LogSoftmax"); (23, "SparseMax")]%Z%string.
