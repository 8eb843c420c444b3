(** * What a history leaves behind *)
From Coq Require Import List Arith Bool.
From Verif Require Import EmbModel.
Import ListNotations.

(** The gradients given to embedding [i] since it was last cleared, oldest first. *)
Definition since {G} (i : nat) (os : list (op G)) : list G :=
  fold_left (fun acc o => match o with
    | Acc j g | Direct j g => if j =? i then acc ++ [g] else acc
    | Zero j | Cleared j => if j =? i then [] else acc
    | ZeroAll => []
    end) os [].
(** their sum, if there are any *)
Definition sum_of {G} (gadd : G -> G -> G) (gs : list G) : option G :=
  match gs with [] => None | g :: gs => Some (fold_left gadd gs g) end.
(** the history only uses embeddings and the model *)
Definition through_embeddings {G} (o : op G) : Prop := match o with Cleared _ | Direct _ _ => False | _ => True end.
(** the history never accumulates on a weight directly *)
Definition not_direct {G} (o : op G) : Prop := match o with Direct _ _ => False | _ => True end.
