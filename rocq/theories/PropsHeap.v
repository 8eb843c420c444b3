(** * Properties of sharing between matrices *)
From Coq Require Import List Arith Bool Lia Relations.
From Verif Require Import DenseModel GradModel HeapModel HeapSpec HeapProofs.
Import ListNotations.
Open Scope nat_scope.

(** ** C22 *)
Section C22.
Context {T A : Type}.
Variable fv : fresh_method -> A -> dense T -> list (dense T) -> option (dense T).
Variable sv : same_method -> A -> dense T -> list (dense T) -> option (list T).
Variable wv : write_method -> A -> dense T -> list (dense T) -> option (list T).
Variable sm : dense T -> list T.
Notation step := (step fv sv wv sm).
Notation run := (run fv sv wv sm).

Lemma in_history cs c h' o v : no_backing cs -> step (run empty cs) c = Some h' -> value (run empty cs) o = Some v ->
  exists b s l, v = mkDense (fst s) (snd s) l /\ nth_error (objs (run empty cs)) o = Some b /\ nth_error (objs h') o = Some b /\
   nth_error (shapes (run empty cs)) (sh b) = Some s /\ (~ writes c o -> nth_error (arrays h') (ar b) = Some l) /\ moved (run empty cs) c h'.
Proof.
  intros N H V. apply step_moved in H. apply value_some in V as (b & s & l & B & S1 & L & ->). exists b, s, l. split; [reflexivity|]. split; [exact B|]. split; [now apply (moved_obj _ c _ _ _ H)|]. split; [exact S1|]. split; [|exact H].
  intros W. apply (moved_array _ c _ _ _ H L). intros o' b' W' B' E. apply W. now rewrite (run_apart _ _ _ _ cs N _ _ _ _ B B' (eq_sym E)).
Qed.
Lemma data_kept cs c h' o v : no_backing cs -> step (run empty cs) c = Some h' -> value (run empty cs) o = Some v -> ~ writes c o -> exists v', value h' o = Some v' /\ data v' = data v.
Proof.
  intros N H V W. destruct (in_history cs c h' o v N H V) as (b & s & l & -> & B & B' & S1 & L & M). specialize (L W).
  pose proof (moved_ok _ _ _ (run_ok fv sv wv sm cs) M) as K. destruct (K _ _ B') as (K1 & _). apply nth_error_Some in K1. destruct (nth_error (shapes h') (sh b)) as [s'|] eqn:S2; [|congruence].
  exists (mkDense (fst s') (snd s') l). split; [|reflexivity]. unfold value. rewrite B'. cbn. rewrite S2. cbn. rewrite L. reflexivity.
Qed.
Lemma shape_kept cs c h' o v : no_backing cs -> step (run empty cs) c = Some h' -> value (run empty cs) o = Some v ->
  (forall o', (reshapes c o' \/ exists d, c = Softmax o' /\ value (run empty cs) o' = Some d /\ cols d <> 1) -> ~ kin (sources step empty cs) o' o) ->
  exists v', value h' o = Some v' /\ rows v' = rows v /\ cols v' = cols v /\ (~ writes c o -> v' = v).
Proof.
  intros N H V W. destruct (in_history cs c h' o v N H V) as (b & s & l & -> & B & B' & S1 & L & M).
  assert (S2 : nth_error (shapes h') (sh b) = Some s).
  { apply (moved_shape _ c _ _ _ M S1). intros o' b' R B2 E. apply (W o' R). apply (proj2 (sources_edges fv sv wv sm cs) o' o b' b B2 B E). }
  pose proof (moved_ok _ _ _ (run_ok fv sv wv sm cs) M) as K. destruct (K _ _ B') as (_ & K2). apply nth_error_Some in K2. destruct (nth_error (arrays h') (ar b)) as [l'|] eqn:L'; [|congruence].
  exists (mkDense (fst s) (snd s) l'). split; [unfold value; rewrite B'; cbn; rewrite S2; cbn; rewrite L'; reflexivity|]. split; [reflexivity|]. split; [reflexivity|]. intros W'. specialize (L W'). congruence.
Qed.
End C22.

(** What a call does to its own matrix: a constructor or a method that returns a matrix makes it the last object, and
    the methods that work in place change their receiver, as documented. *)
Lemma new_last {X} (l : list X) v : nth_error (l ++ [v]) (length l) = Some v.
Proof. rewrite nth_error_app2, Nat.sub_diag by lia. reflexivity. Qed.
Lemma bound {X} (l : list X) i v : nth_error l i = Some v -> i < length l.
Proof. intros H. apply nth_error_Some. congruence. Qed.
Theorem C22_effect : forall T A fv sv wv sm (cs : list (call T A)) (c : call T A) h', let h := run fv sv wv sm empty cs in step fv sv wv sm h c = Some h' ->
  match c with
  | NewDense r k l => length l = r * k /\ value h' (length (objs h)) = Some (mkDense r k l)
  | NewBacking r k o => exists v, value h o = Some v /\ length (data v) = r * k /\ value h' (length (objs h)) = Some (mkDense r k (data v))
  | Fresh m a o os => exists v vs d, value h o = Some v /\ values h os = Some vs /\ fv m a v vs = Some d /\ value h' (length (objs h)) = Some d
  | Same m a o os => exists v vs l, value h o = Some v /\ values h os = Some vs /\ sv m a v vs = Some l /\ length l = length (data v) /\
      value h' (length (objs h)) = Some (mkDense (rows v) (cols v) l)
  | Write m a o os => exists v vs l, value h o = Some v /\ values h os = Some vs /\ wv m a v vs = Some l /\ length l = length (data v) /\
      value h' o = Some (mkDense (rows v) (cols v) l)
  | Softmax o => exists v, value h o = Some v /\ is_vector v = true /\
      value h' (length (objs h)) = Some (match data v with [] => mkDense 0 1 [] | _ => mkDense (if cols v =? 1 then rows v else cols v) 1 (sm v) end)
  | ReshapeInPlace o r k => exists v, value h o = Some v /\ length (data v) = r * k /\ value h' o = Some (mkDense r k (data v))
  | FlattenInPlace o => exists v, value h o = Some v /\ value h' o = Some (mkDense 1 (length (data v)) (data v))
  | TransposeInPlace o => exists v, value h o = Some v /\ value h' o = transpose_in_place v
  end.
Proof.
  intros T A fv sv wv sm cs c h' h. assert (K : ok h) by apply run_ok. clearbody h.
  destruct c as [r k l|r k o|m a o os|m a o os|m a o os|o|o r k|o|o]; cbn [HeapModel.step]; intros H.
  - destruct (Nat.eqb_spec (length l) (r * k)) as [E|]; [|discriminate]. injection H as <-. split; [exact E|]. unfold value, new_both. cbn [objs shapes arrays]. rewrite new_last. cbn [bind sh ar]. rewrite new_last. cbn [bind]. rewrite new_last. reflexivity.
  - apply bind_some in H as (b & B & H). apply bind_some in H as (l & L & H). destruct (Nat.eqb_spec (length l) (r * k)) as [E|]; [|discriminate]. injection H as <-.
    destruct (K _ _ B) as (K1 & _). apply nth_error_Some in K1. destruct (nth_error (shapes h) (sh b)) as [s|] eqn:S1; [|congruence]. exists (mkDense (fst s) (snd s) l).
    unfold value, new_shape. rewrite B. cbn [bind]. rewrite S1. cbn [bind]. rewrite L. cbn [bind data objs shapes arrays]. split; [reflexivity|]. split; [exact E|]. rewrite new_last. cbn [bind sh ar]. rewrite new_last. cbn [bind]. rewrite L. reflexivity.
  - apply bind_some in H as (v & V & H). apply bind_some in H as (vs & VS & H). apply bind_some in H as (d & D & H). injection H as <-. exists v, vs, d. repeat (split; [assumption|]).
    unfold value, new_both. cbn [objs shapes arrays]. rewrite new_last. cbn [bind sh ar]. rewrite new_last. cbn [bind]. rewrite new_last. destruct d; reflexivity.
  - apply bind_some in H as (b & B & H). apply bind_some in H as (v & V & H). apply bind_some in H as (vs & VS & H). apply bind_some in H as (l & L & H). destruct (Nat.eqb_spec (length l) (length (data v))) as [E|]; [|discriminate]. injection H as <-.
    exists v, vs, l. repeat (split; [assumption|]). apply value_some in V as (b' & s & l' & B' & S1 & L' & ->). rewrite B in B'. injection B' as <-.
    unfold value, new_data. cbn [objs shapes arrays]. rewrite new_last. cbn [bind sh ar]. rewrite S1. cbn [bind]. rewrite new_last. reflexivity.
  - apply bind_some in H as (b & B & H). apply bind_some in H as (v & V & H). apply bind_some in H as (vs & VS & H). apply bind_some in H as (l & L & H). destruct (Nat.eqb_spec (length l) (length (data v))) as [E|]; [|discriminate]. injection H as <-.
    exists v, vs, l. repeat (split; [assumption|]). apply value_some in V as (b' & s & l' & B' & S1 & L' & ->). rewrite B in B'. injection B' as <-.
    unfold value, write_data. cbn [objs shapes arrays]. rewrite B. cbn [bind]. rewrite S1. cbn [bind]. rewrite nth_put_eq by (now apply bound in L'). reflexivity.
  - apply bind_some in H as (b & B & H). apply bind_some in H as (v & V & H). destruct (is_vector v) eqn:IV; cbn [negb] in H; [|discriminate]. exists v. split; [exact V|]. split; [exact IV|].
    destruct (data v) as [|e es] eqn:D.
    + injection H as <-. unfold value, new_both. cbn [objs shapes arrays]. rewrite new_last. cbn [bind sh ar]. rewrite new_last. cbn [bind]. rewrite new_last. reflexivity.
    + cbn [length Nat.eqb] in H. destruct (Nat.eqb_spec (length (sm v)) (S (length es))) as [E|E]; cbn [negb] in H; [|discriminate].
      pose proof V as V'. apply value_some in V' as (b' & s & l & B' & S1 & L & Ev). rewrite B in B'. injection B' as <-.
      destruct (Nat.eqb_spec (cols v) 1) as [C|C].
      * injection H as <-. unfold value, new_data. cbn [objs shapes arrays]. rewrite new_last. cbn [bind sh ar]. rewrite S1. cbn [bind]. rewrite new_last. rewrite Ev in *. cbn [rows cols] in *. cbn [bind]. now rewrite C.
      * unfold transpose_at in H. cbn [sh ar new_data shapes arrays] in H. rewrite S1 in H. rewrite nth_error_app2, Nat.sub_diag in H by auto. cbn [nth_error bind] in H.
        assert (R1 : rows v = 1) by (unfold is_vector in IV; apply orb_true_iff in IV as [Q|Q]; apply Nat.eqb_eq in Q; [exact Q|contradiction]).
        assert (TV : transpose_in_place (mkDense (fst s) (snd s) (sm v)) = Some (mkDense (snd s) (fst s) (sm v))).
        { unfold transpose_in_place. cbn [rows cols data]. rewrite Ev in R1. cbn [rows] in R1. rewrite R1. rewrite Nat.eqb_refl, orb_true_r. reflexivity. }
        rewrite TV in H. cbn [bind data] in H. injection H as <-. unfold value, write_data, write_shape, new_data. cbn [objs shapes arrays]. rewrite new_last. cbn [bind sh ar]. rewrite nth_put_eq by (now apply bound in S1). cbn [bind]. rewrite put_last, new_last. cbn [bind fst snd].
        rewrite Ev in *. cbn [rows cols] in *. now rewrite R1.
  - apply bind_some in H as (b & B & H). apply bind_some in H as (v & V & H). destruct (Nat.eqb_spec (r * k) (length (data v))) as [E|]; [|discriminate]. injection H as <-. exists v. split; [exact V|]. split; [auto|].
    apply value_some in V as (b' & s & l' & B' & S1 & L' & ->). rewrite B in B'. injection B' as <-. unfold value, write_shape. cbn [objs shapes arrays]. rewrite B. cbn [bind]. rewrite nth_put_eq by (now apply bound in S1). cbn [bind]. rewrite L'. reflexivity.
  - apply bind_some in H as (b & B & H). apply bind_some in H as (v & V & H). injection H as <-. exists v. split; [exact V|].
    apply value_some in V as (b' & s & l' & B' & S1 & L' & ->). rewrite B in B'. injection B' as <-. unfold value, write_shape. cbn [objs shapes arrays]. rewrite B. cbn [bind]. rewrite nth_put_eq by (now apply bound in S1). cbn [bind]. rewrite L'. reflexivity.
  - apply bind_some in H as (b & B & H). unfold transpose_at in H. apply bind_some in H as (s & S1 & H). apply bind_some in H as (l & L & H). apply bind_some in H as (t & TT & H). injection H as <-.
    exists (mkDense (fst s) (snd s) l). split; [unfold value; rewrite B; cbn [bind]; rewrite S1; cbn [bind]; rewrite L; reflexivity|]. rewrite TT.
    unfold value, write_data, write_shape. cbn [objs shapes arrays]. rewrite B. cbn [bind]. rewrite nth_put_eq by (now apply bound in S1). cbn [bind]. rewrite nth_put_eq by (now apply bound in L). cbn [bind fst snd].
    f_equal. unfold transpose_in_place in TT. cbn [rows cols data] in TT. destruct (_ || _); [injection TT as <-; reflexivity|]. destruct (_ =? _); [injection TT as <-; reflexivity|]. destruct (cycles _ _ _ _ _); [injection TT as <-; reflexivity|discriminate].
Qed.
Print Assumptions C22_effect.

(** The elements of a matrix never change through a call on another one: for every history in which no matrix was
    built on the data slice of another, and whatever the methods compute. *)
Theorem C22_data : forall T A fv sv wv sm (cs : list (call T A)) c h' o v, no_backing cs ->
  step fv sv wv sm (run fv sv wv sm empty cs) c = Some h' -> value (run fv sv wv sm empty cs) o = Some v -> ~ writes c o ->
  exists v', value h' o = Some v' /\ data v' = data v.
Proof. intros. eapply data_kept; eauto. Qed.
Print Assumptions C22_data.
(** Nor does its shape, unless the call reshapes a matrix in place or is the Softmax of a row vector. *)
Theorem C22_independent_partial : forall T A fv sv wv sm (cs : list (call T A)) c h' o v, no_backing cs ->
  step fv sv wv sm (run fv sv wv sm empty cs) c = Some h' -> value (run fv sv wv sm empty cs) o = Some v -> ~ writes c o ->
  (forall o', ~ reshapes c o') -> (forall o' d, c = Softmax o' -> value (run fv sv wv sm empty cs) o' = Some d -> cols d = 1) ->
  value h' o = Some v.
Proof.
  intros T A fv sv wv sm cs c h' o v N H V W R S1. destruct (shape_kept fv sv wv sm cs c h' o v N H V) as (v' & V' & _ & _ & E); [|now rewrite V', (E W)].
  intros o' [Q|(d & Q & D & C)]; [now apply R in Q|]. exfalso. apply C. now apply (S1 o').
Qed.
Print Assumptions C22_independent_partial.
(** Which matrices a reshaping call changes: exactly those connected to its receiver by methods that return a matrix of
    the same shape get the receiver's new shape; all others stay as they are. *)
Theorem C22_shapes : forall T A fv sv wv sm (cs : list (call T A)) c h' r o v, no_backing cs ->
  step fv sv wv sm (run fv sv wv sm empty cs) c = Some h' -> reshapes c r \/ c = Softmax r -> value (run fv sv wv sm empty cs) o = Some v ->
  (kin (sources (step fv sv wv sm) empty cs) r o -> exists vr v', value h' r = Some vr /\ value h' o = Some v' /\ rows v' = rows vr /\ cols v' = cols vr) /\
  (~ kin (sources (step fv sv wv sm) empty cs) r o -> value h' o = Some v).
Proof.
  intros T A fv sv wv sm cs c h' r o v N H R V. split.
  - intros K. destruct (in_history fv sv wv sm cs c h' o v N H V) as (b & s & l & -> & B & B' & S1 & L & M).
    pose proof (moved_ok _ _ _ (run_ok fv sv wv sm cs) M) as OK. destruct (sources_edges fv sv wv sm cs) as (E1 & _).
    destruct (kin_shape _ _ E1 o r (rst_sym _ _ _ _ K) b B) as (br & Br & Es). pose proof (moved_obj _ c _ _ _ M Br) as Br'.
    destruct (OK _ _ B') as (P1 & P2). destruct (OK _ _ Br') as (_ & P3). apply nth_error_Some in P1, P2, P3.
    destruct (nth_error (shapes h') (sh b)) as [s'|] eqn:S2; [|congruence]. destruct (nth_error (arrays h') (ar b)) as [l1|] eqn:L1; [|congruence]. destruct (nth_error (arrays h') (ar br)) as [l2|] eqn:L2; [|congruence].
    exists (mkDense (fst s') (snd s') l2), (mkDense (fst s') (snd s') l1). unfold value. rewrite B', Br'. cbn. rewrite <- Es, S2. cbn. rewrite L1, L2. auto.
  - intros K. assert (W : ~ writes c o).
    { intros W. assert (o = r) as -> by (destruct c; cbn in W, R; destruct R as [R|R]; try discriminate; try contradiction; congruence). apply K, rst_refl. }
    destruct (shape_kept fv sv wv sm cs c h' o v N H V) as (v' & V' & _ & _ & E); [|now rewrite V', (E W)].
    intros o' Q. assert (o' = r) as ->; [|exact K]. destruct R as [R| ->]; [destruct Q as [Q|(d & -> & _)]; [destruct c; cbn in R, Q; congruence || contradiction|contradiction]|destruct Q as [Q|(d & Q & _)]; [contradiction|congruence]].
Qed.
Print Assumptions C22_shapes.
(** The claim is false for shapes: reshaping a matrix in place reshapes its clone. *)
Theorem C22_clone_refuted : forall T A fv sv wv sm (a : A) r c r' c' (l : list T), length l = r * c -> r' * c' = r * c -> (r, c) <> (r', c') ->
  (forall d, sv Clone a d [] = Some (data d)) ->
  let cs := [NewDense r c l; Same Clone a 0 []] in
  value (run fv sv wv sm empty cs) 1 = Some (mkDense r c l) /\ value (run fv sv wv sm empty (cs ++ [ReshapeInPlace 0 r' c'])) 1 = Some (mkDense r' c' l).
Proof.
  intros T A fv sv wv sm a r c r' c' l L E N SV cs. split.
  - cbn. rewrite L, Nat.eqb_refl. cbn. rewrite SV. cbn. rewrite Nat.eqb_refl. reflexivity.
  - cbn. rewrite L, Nat.eqb_refl. cbn. rewrite SV. cbn. rewrite Nat.eqb_refl. cbn. rewrite L, E, Nat.eqb_refl. reflexivity.
Qed.
Print Assumptions C22_clone_refuted.
(** The Softmax of a row vector turns the vector itself, and everything of its shape made from it, into a column. *)
Theorem C22_softmax_refuted : forall T A fv sv wv sm n (l : list T), length l = n -> 2 <= n -> (forall d, length (sm d) = length (data d)) ->
  let cs := [NewDense 1 n l : call T A] in
  value (run fv sv wv sm empty cs) 0 = Some (mkDense 1 n l) /\ value (run fv sv wv sm empty (cs ++ [Softmax 0])) 0 = Some (mkDense n 1 l).
Proof.
  intros T A fv sv wv sm n l L H Hs cs. split.
  - cbn. rewrite L, Nat.add_0_r, Nat.eqb_refl. reflexivity.
  - destruct n as [|[|n]]; [lia|lia|]. cbn. rewrite L, Nat.add_0_r, Nat.eqb_refl. cbn. rewrite Hs. cbn [data]. rewrite L. cbn. rewrite Nat.eqb_refl. reflexivity.
Qed.
Print Assumptions C22_softmax_refuted.
(** A matrix built on the data of another one shares it: NewMatrix is documented to copy the raw data. *)
Theorem C22_backing_refuted : forall T A fv sv wv sm (a : A) r c (l l' : list T), length l = r * c -> length l' = r * c -> l <> l' ->
  (forall d, wv SetData a d [] = Some l') ->
  let cs := [NewDense r c l; NewBacking r c 0] in
  value (run fv sv wv sm empty cs) 1 = Some (mkDense r c l) /\ value (run fv sv wv sm empty (cs ++ [Write SetData a 0 []])) 1 = Some (mkDense r c l').
Proof.
  intros T A fv sv wv sm a r c l l' L L' N W cs. split.
  - cbn. rewrite L, Nat.eqb_refl. cbn. rewrite L, Nat.eqb_refl. reflexivity.
  - cbn. rewrite L, Nat.eqb_refl. cbn. rewrite L, Nat.eqb_refl. cbn. rewrite W. cbn. rewrite L, L', Nat.eqb_refl. reflexivity.
Qed.
Print Assumptions C22_backing_refuted.

(** a history of five calls that meets the hypotheses above *)
Definition copy_value (m : same_method) (_ : unit) (d : dense nat) (_ : list (dense nat)) : option (list nat) := Some (map (fun x => match m with Clone => x | _ => S x end) (data d)).
Definition zero_value (_ : write_method) (_ : unit) (d : dense nat) (_ : list (dense nat)) : option (list nat) := Some (map (fun _ => 0) (data d)).
Definition whole (_ : fresh_method) (_ : unit) (d : dense nat) (_ : list (dense nat)) : option (dense nat) := Some (mkDense (cols d) (rows d) (data d)).
Example C22_case : let cs := [NewDense 1 3 [4; 5; 6]; Same Clone tt 0 []; Same AddScalar tt 1 []; Fresh TransposeM tt 0 []; Write Zeros tt 0 []] in
  no_backing cs /\ map (value (run whole copy_value zero_value data empty cs)) [0; 1; 2; 3] = [Some (mkDense 1 3 [0; 0; 0]); Some (mkDense 1 3 [4; 5; 6]); Some (mkDense 1 3 [5; 6; 7]); Some (mkDense 3 1 [4; 5; 6])] /\
  sources (step whole copy_value zero_value data) empty cs = [None; Some 0; Some 1; None] /\
  map (value (run whole copy_value zero_value data empty (cs ++ [Softmax 2]))) [0; 1; 3] = [Some (mkDense 3 1 [0; 0; 0]); Some (mkDense 3 1 [4; 5; 6]); Some (mkDense 3 1 [4; 5; 6])].
Proof. cbv zeta. split; [intros r c o I; repeat destruct I as [I|I]; try discriminate; contradiction|]. repeat split. Qed.
