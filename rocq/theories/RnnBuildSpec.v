(** * Networks as training leaves them: other numbers, the same sizes *)
From Coq Require Import Reals List Arith Bool.
From Verif Require Import DenseModel DenseSpec GradModel GradSpec OpsSpec AttSpec RnnModel RnnSpec RnnBuildModel.
Import ListNotations.
Open Scope nat_scope.

Definition same_size (a b : mat) : Prop := wf b /\ rows b = rows a /\ cols b = cols a.
Definition trained_gate (a b : gate) : Prop := same_size (g_w a) (g_w b) /\ same_size (g_rec a) (g_rec b) /\ same_size (g_b a) (g_b b).
Definition trained_gru (a b : gru) : Prop :=
  trained_gate (gru_part a) (gru_part b) /\ trained_gate (gru_res a) (gru_res b) /\ trained_gate (gru_cand a) (gru_cand b).
Definition trained_lstm (a b : lstm) : Prop :=
  trained_gate (ls_in a) (ls_in b) /\ trained_gate (ls_out a) (ls_out b) /\ trained_gate (ls_for a) (ls_for b) /\ trained_gate (ls_cand a) (ls_cand b) /\
  ls_refined b = ls_refined a.
Definition trained {A} (P : A -> A -> Prop) (a b : bi A) : Prop := P (bi_pos a) (bi_pos b) /\ P (bi_neg a) (bi_neg b) /\ bi_merge b = bi_merge a.

(** the size of the outputs *)
Definition merged_size (t : merge_type) (hidden : nat) : nat := match t with MConcat => 2 * hidden | _ => hidden end.
(** position i of ys joins what f gives for the inputs up to i with what g gives for the inputs from i on, from the end *)
Definition joins (t : merge_type) (n : nat) (f g : list mat -> option mat) (xs ys : list mat) : Prop :=
  length ys = length xs /\ Forall (is_vec (merged_size t n)) ys /\
  forall i, i < length xs -> exists a b, f (firstn (S i) xs) = Some a /\ g (rev (skipn i xs)) = Some b /\ nth_error ys i = Some (merged t n a b).
