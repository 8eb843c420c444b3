(** * Proofs about matrix arithmetic *)
From Coq Require Import List Arith Bool Lia Ring_theory Ring.
From Verif Require Import DenseModel DenseSpec DenseLemmas DenseProofs ArithModel ArithSpec.
Import ListNotations.

Section T.
Context {T : Type}.
Variable zero : T.
Notation "l .[ i ]" := (nth i l zero) (at level 2, format "l .[ i ]").

Lemma nth_nth_error (l : list T) i : i < length l -> nth_error l i = Some l.[i].
Proof. apply nth_error_nth'. Qed.
Lemma nth_default_error (l : list T) i : l.[i] = match nth_error l i with Some v => v | None => zero end.
Proof. revert i. induction l as [|x l IH]; intros [|i]; cbn; auto. Qed.
Lemma nth_eq_ext (l l' : list T) : length l = length l' -> (forall p, p < length l -> l.[p] = l'.[p]) -> l = l'.
Proof. intros L H. apply (List.nth_ext l l' zero zero L). exact H. Qed.
Lemma put_nth (l : list T) i v p : i < length l -> (put l i v).[p] = if i =? p then v else l.[p].
Proof. intros H. rewrite !nth_default_error, nth_put. bool_cases; try lia; reflexivity. Qed.
Lemma slice_nth (l : list T) a b p : p < b - a -> (slice l a b).[p] = l.[a + p].
Proof. intros H. rewrite !nth_default_error, nth_slice. bool_cases; [reflexivity|lia]. Qed.
Lemma blit_nth (l : list T) a src p : a + length src <= length l -> (blit l a src).[p] = if (a <=? p) && (p <? a + length src) then src.[p - a] else l.[p].
Proof. intros H. rewrite !nth_default_error, nth_blit by assumption. now destruct ((a <=? p) && (p <? a + length src)). Qed.
Lemma repeat_nth n p : (repeat zero n).[p] = zero.
Proof. rewrite nth_default_error, nth_repeat. now destruct (p <? n). Qed.

(** A loop whose i-th iteration replaces element i by a function of it. *)
Lemma loop_up_spec (g : nat -> T -> T) body : (forall i st, i < length st -> body i st = put st i (g i st.[i])) ->
  forall fuel i st, i + fuel <= length st ->
  length (loop_up body i fuel st) = length st /\
  forall p, p < length st -> (loop_up body i fuel st).[p] = if (i <=? p) && (p <? i + fuel) then g p st.[p] else st.[p].
Proof.
  intros Hb. induction fuel as [|fuel IH]; intros i st Hi; cbn [loop_up].
  - split; [reflexivity|]. intros p Hp. bool_cases; try lia; reflexivity.
  - rewrite Hb by lia. destruct (IH (S i) (put st i (g i st.[i]))) as [L H]; [rewrite put_length; lia|]. rewrite put_length in L, H.
    split; [assumption|]. intros p Hp. rewrite H by assumption. rewrite put_nth by lia. bool_cases; subst; try lia; reflexivity.
Qed.
Lemma loop_down_spec (g : nat -> T -> T) body : (forall i st, i < length st -> body i st = put st i (g i st.[i])) ->
  forall fuel st, fuel <= length st ->
  length (loop_down body fuel st) = length st /\
  forall p, p < length st -> (loop_down body fuel st).[p] = if p <? fuel then g p st.[p] else st.[p].
Proof.
  intros Hb. induction fuel as [|fuel IH]; intros st Hi; cbn [loop_down].
  - split; [reflexivity|]. intros p Hp. reflexivity.
  - rewrite Hb by lia. destruct (IH (put st fuel (g fuel st.[fuel]))) as [L H]; [rewrite put_length; lia|]. rewrite put_length in L, H.
    split; [assumption|]. intros p Hp. rewrite H by assumption. rewrite put_nth by lia. bool_cases; subst; try lia; reflexivity.
Qed.

Lemma loop_all (g : nat -> T -> T) body st n : (forall i st, i < length st -> body i st = put st i (g i st.[i])) -> n = length st ->
  loop_up body 0 n st = map (fun p => g p st.[p]) (seq 0 n).
Proof.
  intros Hb ->. destruct (loop_up_spec g body Hb (length st) 0 st) as [L H]; [lia|].
  apply nth_ext. intros k. rewrite nth_map, nth_seq. destruct (Nat.ltb_spec k (length st)).
  - rewrite nth_nth_error by lia. rewrite H by assumption. cbn [option_map Nat.add]. bool_cases; try lia; reflexivity.
  - apply nth_error_None. lia.
Qed.
Lemma loop_down_all (g : nat -> T -> T) body st n : (forall i st, i < length st -> body i st = put st i (g i st.[i])) -> n = length st ->
  loop_down body n st = map (fun p => g p st.[p]) (seq 0 n).
Proof.
  intros Hb ->. destruct (loop_down_spec g body Hb (length st) st) as [L H]; [lia|].
  apply nth_ext. intros k. rewrite nth_map, nth_seq. destruct (Nat.ltb_spec k (length st)).
  - rewrite nth_nth_error by lia. rewrite H by assumption. cbn [option_map Nat.add]. bool_cases; try lia; reflexivity.
  - apply nth_error_None. lia.
Qed.

(** Matrices from index functions *)
Lemma get_elem (m : dense T) i j : wf m -> i < rows m -> j < cols m -> elem m i j = Some (get zero m i j).
Proof. intros Hw Hi Hj. unfold get. destruct (elem_some m i j Hw Hi Hj) as [v E]. now rewrite E. Qed.
Lemma get_data (m : dense T) i j : wf m -> i < rows m -> j < cols m -> get zero m i j = (data m).[i * cols m + j].
Proof. intros Hw Hi Hj. unfold get. rewrite elem_in by assumption. symmetry. apply nth_default_error. Qed.
Lemma has_elems_seq r c (h : nat -> T) f : (forall i j, i < r -> j < c -> h (i * c + j) = f i j) ->
  has_elems (mkDense r c (map h (seq 0 (r * c)))) r c f.
Proof.
  intros H. repeat split; [unfold wf; cbn; now rewrite map_length, seq_length|]. intros i j Hi Hj. rewrite elem_in by assumption. cbn [data cols].
  rewrite nth_map, nth_seq. pose proof (idx_lt _ _ _ _ Hi Hj). bool_cases; [|lia]. cbn [option_map Nat.add]. now rewrite H.
Qed.
Lemma has_elems_nth m r c f : rows m = r -> cols m = c -> length (data m) = r * c ->
  (forall i j, i < r -> j < c -> (data m).[i * c + j] = f i j) -> has_elems m r c f.
Proof.
  intros <- <- L H. repeat split; [exact L|]. intros i j Hi Hj. rewrite elem_in by assumption.
  rewrite nth_nth_error by (rewrite L; now apply idx_lt). now rewrite H.
Qed.
Lemma has_elems_unique (a b : dense T) r c f : has_elems a r c f -> has_elems b r c f -> a = b.
Proof. apply is_matrix_unique. Qed.

Implicit Types d o : dense T.

Lemma same_dims_spec d o : same_dims d o = true <-> rows d = rows o /\ cols d = cols o.
Proof. unfold same_dims. rewrite andb_true_iff, !Nat.eqb_eq. tauto. Qed.

Lemma mat_binary_spec op d o : wf d -> wf o ->
  (rows d = rows o /\ cols d = cols o -> exists m, mat_binary zero op d o = Some m /\
     has_elems m (rows d) (cols d) (fun i j => op (get zero d i j) (get zero o i j))) /\
  (mat_binary zero op d o = None <-> ~ (rows d = rows o /\ cols d = cols o)).
Proof.
  intros Hd Ho. unfold mat_binary. destruct (same_dims d o) eqn:S.
  - apply same_dims_spec in S. split; [|split; [discriminate|tauto]]. intros _. eexists. split; [reflexivity|].
    unfold binary_kernel. rewrite (loop_all (fun i _ => op (data d).[i] (data o).[i])); [|reflexivity|now rewrite repeat_length].
    rewrite Hd. apply has_elems_seq. intros i j Hi Hj. destruct S as [R C]. rewrite !get_data by (auto; lia). now rewrite C.
  - split; [|split; [|reflexivity]]; intros H; [apply same_dims_spec in H; congruence|]. intros H'. apply same_dims_spec in H'. congruence.
Qed.

Lemma mat_binary_in_place_agrees op d o : wf d -> wf o -> mat_binary_in_place zero op d o = mat_binary zero op d o.
Proof.
  intros Hd Ho. unfold mat_binary_in_place, mat_binary. destruct (same_dims d o); [|reflexivity]. f_equal. f_equal.
  unfold binary_kernel, binary_kernel_in_place.
  rewrite (loop_all (fun i v => op v (data o).[i])) by reflexivity.
  rewrite (loop_all (fun i _ => op (data d).[i] (data o).[i])); [reflexivity|reflexivity|now rewrite repeat_length].
Qed.
Lemma mat_binary_self_agrees op d : wf d -> Some (mat_binary_self zero op d) = mat_binary zero op d d.
Proof.
  intros Hd. unfold mat_binary_self, mat_binary. assert (S : same_dims d d = true) by (apply same_dims_spec; auto). rewrite S. f_equal. f_equal.
  unfold binary_kernel, binary_kernel_self.
  rewrite (loop_all (fun i v => op v v)) by reflexivity.
  rewrite (loop_all (fun i _ => op (data d).[i] (data d).[i])); [reflexivity|reflexivity|now rewrite repeat_length].
Qed.
Lemma mat_prod_agrees (mul : T -> T -> T) d o : wf d -> wf o -> mat_prod zero mul d o = mat_binary zero mul d o /\ mat_prod_in_place zero mul d o = mat_binary zero mul d o.
Proof.
  intros Hd Ho. split; [|now apply mat_binary_in_place_agrees].
  unfold mat_prod, mat_binary. destruct (same_dims d o) eqn:S; [|reflexivity]. apply same_dims_spec in S. destruct S as [R C]. f_equal. f_equal.
  unfold binary_kernel. assert (L : length (data o) = length (data d)) by (rewrite Hd, Ho; congruence).
  rewrite (loop_down_all (fun i _ => mul (data d).[i] (data o).[i])); [|reflexivity|now rewrite repeat_length].
  rewrite (loop_all (fun i _ => mul (data d).[i] (data o).[i])); [|reflexivity|now rewrite repeat_length].
  now rewrite L.
Qed.
Lemma mat_const_spec op d n : wf d ->
  has_elems (mat_const zero op d n) (rows d) (cols d) (fun i j => op (get zero d i j) n) /\ mat_const_in_place zero op d n = mat_const zero op d n.
Proof.
  intros Hd. unfold mat_const, mat_const_in_place, const_kernel, const_kernel_in_place.
  rewrite (loop_all (fun i _ => op (data d).[i] n)); [|reflexivity|now rewrite repeat_length].
  rewrite (loop_all (fun i v => op v n)) by reflexivity. split; [|reflexivity].
  rewrite Hd. apply has_elems_seq. intros i j Hi Hj. now rewrite get_data.
Qed.
Lemma prod_matrix_scalar_spec (mul : T -> T -> T) d m n : wf d -> wf m ->
  prod_matrix_scalar_in_place zero mul d m n = if same_dims d m then Some (mat_const zero mul m n) else None.
Proof.
  intros Hd Hm. unfold prod_matrix_scalar_in_place. destruct (same_dims d m) eqn:S; [|reflexivity]. apply same_dims_spec in S. destruct S as [R C].
  unfold mat_const, const_kernel. rewrite R, C. f_equal. f_equal. assert (L : length (data m) = length (data d)) by (rewrite Hd, Hm; congruence).
  rewrite (loop_all (fun i _ => mul (data m).[i] n)); [|reflexivity|assumption].
  rewrite (loop_all (fun i _ => mul (data m).[i] n)); [|reflexivity|now rewrite repeat_length]. reflexivity.
Qed.
Lemma mat_unary_spec f d : wf d -> has_elems (mat_unary zero f d) (rows d) (cols d) (fun i j => f (get zero d i j)).
Proof.
  intros Hd. unfold mat_unary. rewrite (loop_all (fun i _ => f (data d).[i])); [|reflexivity|now rewrite repeat_length].
  rewrite Hd. apply has_elems_seq. intros i j Hi Hj. now rewrite get_data.
Qed.

Lemma clip_spec (lt : T -> T -> bool) d mn mx : wf d -> 
  (lt mx mn = true -> clip_in_place zero lt d mn mx = None) /\
  (lt mx mn = false -> exists m, clip_in_place zero lt d mn mx = Some m /\
     has_elems m (rows d) (cols d) (fun i j => let v := get zero d i j in if lt v mn then mn else if lt mx v then mx else v)).
Proof.
  intros Hd. unfold clip_in_place. split; intros E; rewrite E; [reflexivity|]. eexists. split; [reflexivity|].
  rewrite (loop_all (fun _ v => if lt v mn then mn else if lt mx v then mx else v)); [| |reflexivity].
  - rewrite Hd. apply has_elems_seq. intros i j Hi Hj. cbn zeta. now rewrite get_data.
  - intros i st Hi. cbn zeta. destruct (lt st.[i] mn); [reflexivity|]. destruct (lt mx st.[i]); [reflexivity|].
    apply nth_eq_ext; [now rewrite put_length|]. intros p Hp. rewrite put_nth by assumption. bool_cases; subst; reflexivity.
Qed.
End T.

(** ** Maximum, minimum, arg-max over a total order *)
Section Order.
Context {T : Type}.
Variable zero : T.
Variable lt : T -> T -> bool.
(** What Go's [<] satisfies on floats other than NaN. *)
Definition strict_order : Prop :=
  (forall a, lt a a = false) /\ (forall a b c, lt a b = true -> lt b c = true -> lt a c = true) /\
  (forall a b c, lt a b = true -> lt a c = true \/ lt c b = true).
Hypothesis O : strict_order.

Lemma not_lt_trans a b c : lt a b = false -> lt b c = false -> lt a c = false.
Proof.
  intros H1 H2. destruct (lt a c) eqn:E; [|reflexivity]. destruct O as (_ & _ & W). destruct (W _ _ b E); congruence.
Qed.
Lemma max_loop_spec vs : forall m, (In (max_loop lt m vs) (m :: vs)) /\ forall v, In v (m :: vs) -> lt (max_loop lt m vs) v = false.
Proof.
  induction vs as [|x vs IH]; intros m; cbn [max_loop fold_left].
  - split; [now left|]. intros v [<-|[]]. apply O.
  - destruct (IH (if lt m x then x else m)) as [I M]. fold (max_loop lt (if lt m x then x else m) vs). split.
    + destruct I as [I|I]; [|now right; right]. destruct (lt m x); [right; left; exact I|left; exact I].
    + intros v Hv. assert (G : lt (max_loop lt (if lt m x then x else m) vs) (if lt m x then x else m) = false) by (apply M; now left).
      destruct Hv as [<-|[<-|Hv]]; [| |apply M; now right].
      * destruct (lt m x) eqn:E; [|exact G]. eapply not_lt_trans; [exact G|]. destruct (lt x m) eqn:E2; [|reflexivity].
        destruct O as (I0 & Tr & _). pose proof (Tr _ _ _ E E2) as X. rewrite I0 in X. discriminate.
      * destruct (lt m x) eqn:E; [exact G|]. eapply not_lt_trans; eassumption.
Qed.
Lemma min_loop_spec vs : forall m, (In (min_loop lt m vs) (m :: vs)) /\ forall v, In v (m :: vs) -> lt v (min_loop lt m vs) = false.
Proof.
  induction vs as [|x vs IH]; intros m; cbn [min_loop fold_left].
  - split; [now left|]. intros v [<-|[]]. apply O.
  - destruct (IH (if lt x m then x else m)) as [I M]. fold (min_loop lt (if lt x m then x else m) vs). split.
    + destruct I as [I|I]; [|now right; right]. destruct (lt x m); [right; left; exact I|left; exact I].
    + intros v Hv. assert (G : lt (if lt x m then x else m) (min_loop lt (if lt x m then x else m) vs) = false) by (apply M; now left).
      destruct Hv as [<-|[<-|Hv]]; [| |apply M; now right].
      * destruct (lt x m) eqn:E; [|exact G]. eapply not_lt_trans; [|exact G]. destruct (lt m x) eqn:E2; [|reflexivity].
        destruct O as (I0 & Tr & _). pose proof (Tr _ _ _ E E2) as X. rewrite I0 in X. discriminate.
      * destruct (lt x m) eqn:E; [exact G|]. eapply not_lt_trans; [exact E|exact G].
Qed.

Notation "l .[ i ]" := (nth i l zero) (at level 2, format "l .[ i ]").
Lemma arg_max_loop_spec all : forall vs i mi mv, all = firstn i all ++ vs -> i + length vs = length all -> mi < length all -> (mi < i \/ mi = 0) -> mv = all.[mi] ->
  (forall k, k < i -> lt all.[mi] all.[k] = false) -> (forall k, k < mi -> k < i -> lt all.[k] all.[mi] = true) ->
  let r := arg_max_loop lt i mi mv vs in
  r < length all /\ (forall k, k < length all -> lt all.[r] all.[k] = false) /\ (forall k, k < r -> lt all.[k] all.[r] = true).
Proof.
  induction vs as [|v vs IH]; intros i mi mv Hall Hlen Hmi Hor Hmv Hmax Hfirst; cbn [arg_max_loop].
  - cbn [length] in Hlen. rewrite Nat.add_0_r in Hlen. cbn. repeat split; [assumption|intros k Hk; apply Hmax; lia|]. intros k Hk. apply Hfirst; [assumption|lia].
  - assert (Hv : v = all.[i]).
    { rewrite Hall. rewrite app_nth2 by (rewrite firstn_length; lia). rewrite firstn_length. replace (i - Nat.min i (length all)) with 0 by (cbn in Hlen; lia). reflexivity. }
    assert (Hall' : all = firstn (S i) all ++ vs).
    { transitivity (firstn i all ++ [v] ++ vs); [exact Hall|]. rewrite app_assoc. f_equal.
      rewrite Hall at 2. rewrite firstn_app, firstn_firstn, firstn_length. cbn [length] in Hlen.
      replace (Nat.min (S i) i) with i by lia. replace (S i - Nat.min i (length all)) with 1 by lia. reflexivity. }
    cbn [length] in Hlen. subst mv. destruct (lt all.[mi] v) eqn:E.
    + apply IH; auto; try lia.
      * intros k Hk. rewrite Hv in E. destruct (Nat.eq_dec k i) as [->|]; [apply O|].
        destruct (lt all.[i] all.[k]) eqn:E2; [|reflexivity]. destruct O as (_ & Tr & _). pose proof (Tr _ _ _ E E2) as X. rewrite Hmax in X by lia. discriminate.
      * intros k Hk _. rewrite Hv in E. destruct O as (_ & Tr & W). destruct (W _ _ all.[k] E) as [X|X]; [|assumption]. rewrite Hmax in X by lia. discriminate.
    + apply IH; auto; try lia.
      * intros k Hk. destruct (Nat.eq_dec k i) as [->|]; [now rewrite <- Hv|]. apply Hmax. lia.
      * intros k Hk _. destruct Hor as [Hor|Hor]; [|lia]. apply Hfirst; lia.
Qed.
Lemma arg_max_spec (d : dense T) : wf d ->
  (arg_max lt d = None <-> is_vector d = false \/ rows d * cols d = 0) /\
  forall r, arg_max lt d = Some r -> r < length (data d) /\
    (forall k, k < length (data d) -> lt (data d).[r] (data d).[k] = false) /\ (forall k, k < r -> lt (data d).[k] (data d).[r] = true).
Proof.
  intros Hd. unfold arg_max. rewrite <- Hd. destruct (is_vector d); cbn [negb]; [|split; [tauto|discriminate]].
  destruct (data d) as [|v vs] eqn:E; [split; [cbn; tauto|discriminate]|]. split; [split; [discriminate|intros [X|X]; discriminate]|].
  intros r Er. assert (Er' : r = arg_max_loop lt 0 0 v (v :: vs)) by congruence. rewrite Er'.
  apply (arg_max_loop_spec (v :: vs) (v :: vs) 0 0 v); auto; cbn; try lia.
Qed.
End Order.

(** ** Sums and products over a commutative semiring *)
Section Ring.
Context {T : Type}.
Variables (zero one : T) (add mul : T -> T -> T) (is_zero : T -> bool).
Hypothesis R : semi_ring_theory zero one add mul (@eq T).
Hypothesis Z : forall v, is_zero v = true -> v = zero.
Add Ring TR : R.
Notation "l .[ i ]" := (nth i l zero) (at level 2, format "l .[ i ]").
Notation sum := (sum_to zero add).

Lemma sum_ext n f g : (forall k, k < n -> f k = g k) -> sum n f = sum n g.
Proof. revert f g. induction n as [|n IH]; intros f g H; cbn; [reflexivity|]. rewrite (H 0) by lia. f_equal. apply IH. intros k Hk. apply H. lia. Qed.
Lemma sum_zero n f : (forall k, k < n -> f k = zero) -> sum n f = zero.
Proof. revert f. induction n as [|n IH]; intros f H; cbn; [reflexivity|]. rewrite (H 0) by lia. rewrite IH by (intros; apply H; lia). ring. Qed.
Lemma sum_kernel_spec l : sum_kernel zero add l = sum (length l) (fun k => l.[k]).
Proof.
  unfold sum_kernel. assert (G : forall acc, fold_left add l acc = add acc (sum (length l) (fun k => l.[k]))).
  { induction l as [|x l IH]; intros acc; cbn [fold_left length sum_to nth]; [ring|]. rewrite IH. ring. }
  rewrite G. ring.
Qed.
Lemma dot_loop_spec x : forall y acc, length x = length y -> dot_loop add mul acc x y = add acc (sum (length x) (fun k => mul x.[k] y.[k])).
Proof.
  induction x as [|a x IH]; intros [|b y] acc L; cbn [dot_loop length sum_to nth]; try discriminate; [ring|]. rewrite IH by (now injection L). ring.
Qed.
Lemma dot_unitary_spec x : forall y acc, length x = length y -> dot_unitary add mul acc x y = add acc (sum (length x) (fun k => mul x.[k] y.[k])).
Proof.
  induction x as [|a x IH]; intros [|b y] acc L; cbn [dot_unitary length sum_to nth]; try discriminate; [ring|]. rewrite IH by (now injection L). ring.
Qed.
Lemma axpy_nth alpha x y p : length x = length y -> p < length y -> (axpy zero add mul alpha x y).[p] = add y.[p] (mul alpha x.[p]).
Proof.
  intros L Hp. unfold axpy. destruct (loop_up_spec zero (fun i v => add v (mul alpha x.[i])) _ ltac:(intros; reflexivity) (length x) 0 y ltac:(lia)) as [_ H].
  rewrite H by assumption. bool_cases; try lia; reflexivity.
Qed.
Lemma axpy_length alpha x y : length x = length y -> length (axpy zero add mul alpha x y) = length y.
Proof.
  intros L. unfold axpy. destruct (loop_up_spec zero (fun i v => add v (mul alpha x.[i])) _ ltac:(intros; reflexivity) (length x) 0 y ltac:(lia)) as [H _]. exact H.
Qed.
Lemma axpy_to_nth alpha x y p : length x = length y -> p < length y -> (axpy_to zero add mul alpha x y).[p] = add y.[p] (mul alpha x.[p]).
Proof.
  intros L Hp. unfold axpy_to. destruct (loop_up_spec zero (fun i v => add (mul alpha x.[i]) v) _ ltac:(intros; reflexivity) (length x) 0 y ltac:(lia)) as [_ H].
  rewrite H by assumption. bool_cases; try lia. ring.
Qed.
Lemma axpy_to_length alpha x y : length x = length y -> length (axpy_to zero add mul alpha x y) = length y.
Proof.
  intros L. unfold axpy_to. destruct (loop_up_spec zero (fun i v => add (mul alpha x.[i]) v) _ ltac:(intros; reflexivity) (length x) 0 y ltac:(lia)) as [H _]. exact H.
Qed.

Lemma mul_row_spec bc b vs : forall l ctmp, length ctmp = bc -> (l + length vs) * bc <= length b ->
  let r := mul_row zero add mul is_zero bc l vs b ctmp in
  length r = bc /\ forall p, p < bc -> r.[p] = add ctmp.[p] (sum (length vs) (fun t => mul vs.[t] b.[(l + t) * bc + p])).
Proof.
  induction vs as [|v vs IH]; intros l ctmp Lc Hb; cbn [mul_row].
  - split; [assumption|]. intros p Hp. cbn. ring.
  - cbn [length] in Hb. assert (Ls : length (slice b (l * bc) (l * bc + bc)) = length ctmp) by (rewrite slice_length by nia; lia).
    set (c' := if is_zero v then ctmp else axpy zero add mul v (slice b (l * bc) (l * bc + bc)) ctmp).
    assert (Lc' : length c' = bc) by (unfold c'; destruct (is_zero v); [assumption|now rewrite axpy_length]).
    assert (Hc' : forall p, p < bc -> c'.[p] = add ctmp.[p] (mul v b.[l * bc + p])).
    { intros p Hp. unfold c'. destruct (is_zero v) eqn:E; [rewrite (Z _ E); ring|]. rewrite axpy_nth by (assumption || lia). now rewrite slice_nth by lia. }
    destruct (IH (S l) c' Lc') as [L H]; [nia|]. split; [assumption|]. intros p Hp. rewrite H, Hc' by assumption.
    cbn [length sum_to nth]. rewrite Nat.add_0_r.
    rewrite (sum_ext _ (fun t => mul vs.[t] b.[(S l + t) * bc + p]) (fun k => mul vs.[k] b.[(l + S k) * bc + p])); [ring|].
    intros k Hk. now replace (S l + k) with (l + S k) by lia.
Qed.

Lemma mul_rows_spec ac bc n a b : length a = n * ac -> length b = ac * bc -> forall fuel i c, i + fuel = n -> length c = n * bc ->
  let r := mul_rows zero add mul is_zero ac bc a b i fuel c in
  length r = n * bc /\ forall x y, x < n -> y < bc -> r.[x * bc + y] =
    if i <=? x then add c.[x * bc + y] (sum ac (fun t => mul a.[x * ac + t] b.[t * bc + y])) else c.[x * bc + y].
Proof.
  intros La Lb. induction fuel as [|fuel IH]; intros i c Hi Lc; cbn [mul_rows].
  - split; [assumption|]. intros x y Hx Hy. destruct (Nat.leb_spec i x); [lia|reflexivity].
  - assert (Lv : length (slice a (i * ac) (i * ac + ac)) = ac) by (rewrite slice_length by nia; lia).
    destruct (mul_row_spec bc b (slice a (i * ac) (i * ac + ac)) 0 (slice c (i * bc) (i * bc + bc))) as [L1 H1].
    { rewrite slice_length by nia. lia. } { rewrite Lv. lia. }
    set (row := mul_row zero add mul is_zero bc 0 (slice a (i * ac) (i * ac + ac)) b (slice c (i * bc) (i * bc + bc))) in *.
    assert (B : i * bc + length row <= length c) by (rewrite L1, Lc; nia).
    destruct (IH (S i) (blit c (i * bc) row)) as [L H]; [lia|rewrite blit_length by assumption; assumption|].
    split; [assumption|]. intros x y Hx Hy. rewrite H by assumption. rewrite blit_nth by assumption. rewrite L1.
    destruct (Nat.leb_spec (S i) x) as [A1|A1], (Nat.leb_spec i x) as [A2|A2]; try lia.
    + assert (i * bc + bc <= x * bc + y) by nia. bool_cases; try lia. reflexivity.
    + assert (x = i) by lia. subst x. assert (Hin : (i * bc <=? i * bc + y) && (i * bc + y <? i * bc + bc) = true) by (bool_cases; try lia; reflexivity).
      rewrite Hin. replace (i * bc + y - i * bc) with y by lia. rewrite H1 by assumption. rewrite slice_nth by lia. f_equal. rewrite Lv.
      apply sum_ext. intros k Hk. rewrite slice_nth by lia. reflexivity.
    + assert (x * bc + y < i * bc) by nia. bool_cases; try lia. reflexivity.
Qed.

Lemma mul_vec32_spec dc n a b : length a = n * dc -> length b = dc -> forall fuel i out, i + fuel = n -> length out = n ->
  let r := mul_vec32 zero add mul dc (i * dc) a b i fuel out in
  length r = n /\ forall x, x < n -> r.[x] = if i <=? x then sum dc (fun t => mul a.[x * dc + t] b.[t]) else out.[x].
Proof.
  intros La Lb. induction fuel as [|fuel IH]; intros i out Hi Lo; cbn [mul_vec32].
  - split; [assumption|]. intros x Hx. destruct (Nat.leb_spec i x); [lia|reflexivity].
  - replace (i * dc + dc) with (S i * dc) by lia.
    assert (Lv : length (slice a (i * dc) (S i * dc)) = dc) by (rewrite slice_length by nia; lia).
    destruct (IH (S i) (put out i (dot_kernel zero add mul (slice a (i * dc) (S i * dc)) b))) as [L H]; [lia|now rewrite put_length|].
    split; [assumption|]. intros x Hx. rewrite H by assumption. rewrite put_nth by lia. unfold dot_kernel. rewrite dot_loop_spec by lia. rewrite Lv.
    destruct (Nat.eqb_spec i x) as [<-|]; bool_cases; try lia; try reflexivity.
    transitivity (sum dc (fun k => mul (slice a (i * dc) (S i * dc)).[k] b.[k])); [ring|]. apply sum_ext. intros k Hk. now rewrite slice_nth by lia.
Qed.
Lemma gemv_spec dc n a b : length a = n * dc -> length b = dc -> forall fuel i out, i + fuel = n -> length out = n ->
  let r := gemv_n zero one add mul dc a b i fuel out in
  length r = n /\ forall x, x < n -> r.[x] = if i <=? x then sum dc (fun t => mul a.[x * dc + t] b.[t]) else out.[x].
Proof.
  intros La Lb. induction fuel as [|fuel IH]; intros i out Hi Lo; cbn [gemv_n].
  - split; [assumption|]. intros x Hx. destruct (Nat.leb_spec i x); [lia|reflexivity].
  - assert (Lv : length (slice a (dc * i) (dc * i + dc)) = dc) by (rewrite slice_length by nia; lia).
    destruct (IH (S i) (put out i (mul one (dot_unitary add mul zero (slice a (dc * i) (dc * i + dc)) b)))) as [L H]; [lia|now rewrite put_length|].
    split; [assumption|]. intros x Hx. rewrite H by assumption. rewrite put_nth by lia. rewrite dot_unitary_spec by lia. rewrite Lv.
    destruct (Nat.eqb_spec i x) as [<-|]; bool_cases; try lia; try reflexivity.
    transitivity (sum dc (fun k => mul (slice a (dc * i) (dc * i + dc)).[k] b.[k])); [ring|]. apply sum_ext. intros k Hk.
    rewrite slice_nth by lia. now rewrite (Nat.mul_comm dc i).
Qed.

Lemma mat_mul_spec wide (d o : dense T) : wf d -> wf o ->
  (cols d = rows o -> exists m, mat_mul zero one add mul is_zero wide d o = Some m /\
     has_elems m (rows d) (cols o) (fun i k => sum (cols d) (fun j => mul (get zero d i j) (get zero o j k)))) /\
  (cols d <> rows o -> mat_mul zero one add mul is_zero wide d o = None).
Proof.
  intros Hd Ho. unfold mat_mul. split; intros E; [|destruct (Nat.eqb_spec (cols d) (rows o)); [congruence|reflexivity]].
  rewrite <- E, Nat.eqb_refl. cbn [negb]. destruct (Nat.eqb_spec (cols o) 1) as [E1|E1]; cbn [negb].
  - assert (Lb : length (data o) = cols d) by (rewrite Ho, E1; lia).
    assert (G : forall l, length l = rows d -> (forall x, x < rows d -> l.[x] = sum (cols d) (fun t => mul (data d).[x * cols d + t] (data o).[t])) ->
      has_elems (mkDense (rows d) (cols o) l) (rows d) (cols o) (fun i k => sum (cols d) (fun j => mul (get zero d i j) (get zero o j k)))).
    { intros l Ll Hl. apply (has_elems_nth zero); auto; cbn [rows cols data]; [rewrite E1; lia|]. intros i j Hi Hj. replace (i * cols o + j) with i by (rewrite E1; nia).
      rewrite Hl by assumption. apply sum_ext. intros k Hk. rewrite !get_data by (auto; lia). f_equal. f_equal. rewrite E1. lia. }
    destruct wide.
    + destruct (gemv_spec (cols d) (rows d) (data d) (data o) Hd Lb (rows d) 0 (repeat zero (rows d * cols o))) as [L H]; [lia|rewrite repeat_length, E1; lia|].
      eexists. split; [reflexivity|]. apply G; assumption.
    + destruct (mul_vec32_spec (cols d) (rows d) (data d) (data o) Hd Lb (rows d) 0 (repeat zero (rows d * cols o))) as [L H]; [lia|rewrite repeat_length, E1; lia|].
      eexists. split; [reflexivity|]. rewrite repeat_length, E1, Nat.mul_1_r in *. cbn [Nat.mul] in L, H. apply G; assumption.
  - assert (Lb : length (data o) = cols d * cols o) by (rewrite Ho, E; reflexivity).
    destruct (mul_rows_spec (cols d) (cols o) (rows d) (data d) (data o) Hd Lb (rows d) 0 (repeat zero (rows d * cols o))) as [L H]; [lia|apply repeat_length|].
    eexists. split; [reflexivity|]. apply (has_elems_nth zero); auto. intros i j Hi Hj. cbn [data]. unfold matrix_mul. rewrite H by assumption. cbn [Nat.leb].
    rewrite repeat_nth. transitivity (sum (cols d) (fun t => mul (data d).[i * cols d + t] (data o).[t * cols o + j])); [ring|].
    apply sum_ext. intros k Hk. rewrite !get_data by (auto; lia). reflexivity.
Qed.

Lemma mul_t_loop_spec dc a n : length a = n * dc -> forall other from out, length out = dc -> from + length other = n ->
  let r := mul_t_loop zero add mul dc (from * dc) a other out in
  length r = dc /\ forall p, p < dc -> r.[p] = add out.[p] (sum (length other) (fun t => mul other.[t] a.[(from + t) * dc + p])).
Proof.
  intros La. induction other as [|v other IH]; intros from out Lo Hf; cbn [mul_t_loop].
  - split; [assumption|]. intros p Hp. cbn. ring.
  - cbn [length] in Hf. replace (from * dc + dc) with (S from * dc) by lia.
    assert (Lv : length (slice a (from * dc) (S from * dc)) = length out) by (rewrite slice_length by nia; lia).
    destruct (IH (S from) (axpy_to zero add mul v (slice a (from * dc) (S from * dc)) out)) as [L H]; [now rewrite axpy_to_length|lia|].
    split; [assumption|]. intros p Hp. rewrite H by assumption. rewrite axpy_to_nth by (assumption || lia). rewrite slice_nth by lia.
    cbn [length sum_to nth]. rewrite Nat.add_0_r.
    rewrite (sum_ext _ (fun t => mul other.[t] a.[(S from + t) * dc + p]) (fun k => mul other.[k] a.[(from + S k) * dc + p])); [ring|].
    intros k Hk. now replace (S from + k) with (from + S k) by lia.
Qed.
Lemma mat_mul_t_spec (d o : dense T) : wf d -> wf o ->
  (rows d = rows o /\ cols o = 1 -> exists m, mat_mul_t zero add mul d o = Some m /\
     has_elems m (cols d) 1 (fun i _ => sum (rows d) (fun k => mul (get zero d k i) (get zero o k 0)))) /\
  (~ (rows d = rows o /\ cols o = 1) -> mat_mul_t zero add mul d o = None).
Proof.
  intros Hd Ho. unfold mat_mul_t. split; intros E.
  - destruct E as [E1 E2]. rewrite E1, E2, !Nat.eqb_refl. cbn [negb]. eexists. split; [reflexivity|].
    assert (Lo : length (data o) = rows o) by (rewrite Ho, E2; lia).
    destruct (mul_t_loop_spec (cols d) (data d) (rows d) Hd (data o) 0 (repeat zero (cols d * 1))) as [L H]; [rewrite repeat_length; lia|lia|].
    cbn [Nat.mul Nat.add] in L, H. apply (has_elems_nth zero); auto; cbn [data]; [lia|]. intros i j Hi Hj. replace (i * 1 + j) with i by lia.
    rewrite H by assumption. rewrite repeat_nth, Lo, <- E1.
    transitivity (sum (rows d) (fun t => mul (data o).[t] (data d).[t * cols d + i])); [ring|].
    apply sum_ext. intros k Hk. rewrite !get_data by (auto; lia). rewrite E2, Nat.mul_1_r, Nat.add_0_r. ring.
  - destruct (Nat.eqb_spec (rows d) (rows o)); [|reflexivity]. destruct (Nat.eqb_spec (cols o) 1); [tauto|reflexivity].
Qed.
Lemma mat_dot_spec (d o : dense T) : wf d -> wf o -> rows d = rows o /\ cols d = cols o ->
  mat_dot zero add mul d o = Some (scalar (sum (rows d * cols d) (fun k => mul (data d).[k] (data o).[k]))).
Proof.
  intros Hd Ho [E1 E2]. unfold mat_dot. assert (S : same_dims d o = true) by (apply same_dims_spec; auto). rewrite S. f_equal. f_equal.
  unfold dot_kernel. rewrite dot_loop_spec by (rewrite Hd, Ho; congruence). rewrite Hd. ring.
Qed.

Lemma sum_S_r n f : sum (S n) f = add (sum n f) (f n).
Proof. revert f. induction n as [|n IH]; intros f; [cbn; ring|]. change (sum (S (S n)) f) with (add (f 0) (sum (S n) (fun k => f (S k)))). rewrite IH. cbn. ring. Qed.
Lemma cum_sum_loop_spec vs : forall i dst, i + length vs < length dst ->
  let r := cum_sum_loop zero add i vs dst in
  length r = length dst /\ (forall p, p <= i -> r.[p] = dst.[p]) /\
  forall t, t < length vs -> r.[i + S t] = add dst.[i] (sum (S t) (fun k => vs.[k])).
Proof.
  induction vs as [|v vs IH]; intros i dst Hd; cbn [cum_sum_loop].
  - split; [reflexivity|]. split; [reflexivity|]. intros t Ht. cbn in Ht. lia.
  - cbn [length] in Hd. destruct (IH (S i) (put dst (S i) (add dst.[i] v))) as (L & H1 & H2); [rewrite put_length; lia|].
    rewrite put_length in L. split; [assumption|]. split.
    + intros p Hp. rewrite H1 by lia. rewrite put_nth by lia. bool_cases; try lia. reflexivity.
    + intros [|t] Ht.
      * rewrite H1 by lia. rewrite put_nth by lia. bool_cases; try lia. cbn. ring.
      * cbn [length] in Ht. replace (i + S (S t)) with (S i + S t) by lia. rewrite H2 by lia. rewrite put_nth by lia. bool_cases; try lia.
        cbn [sum_to nth]. ring.
Qed.
Lemma cum_sum_spec (d : dense T) : wf d -> is_vector d = true -> exists m, cum_sum zero add d = Some m /\
  has_elems m (length (data d)) 1 (fun i _ => sum (S i) (fun k => (data d).[k])).
Proof.
  intros Hd V. unfold cum_sum. rewrite V. cbn [negb]. destruct (data d) as [|v vs] eqn:E.
  - eexists. split; [reflexivity|]. apply (has_elems_nth zero); auto. intros i j Hi Hj. cbn in Hi. lia.
  - eexists. split; [reflexivity|].
    destruct (cum_sum_loop_spec vs 0 (put (repeat zero (length (v :: vs))) 0 v)) as (L & H1 & H2); [rewrite put_length, repeat_length; cbn; lia|].
    rewrite put_length, repeat_length in L. apply (has_elems_nth zero); auto; cbn [data]; [rewrite L; lia|].
    intros i j Hi Hj. replace (i * 1 + j) with i by lia. destruct i as [|i].
    + rewrite H1 by lia. cbn. ring.
    + cbn [length] in Hi. replace (S i) with (0 + S i) at 1 by lia. rewrite H2 by lia. cbn. ring.
Qed.
End Ring.

Lemma vec_nonzero_spec {T} (is_zero : T -> bool) vs : forall i, vec_nonzero_loop is_zero i vs = filter (fun p => negb (is_zero (snd p))) (combine (seq i (length vs)) vs).
Proof.
  induction vs as [|v vs IH]; intros i; cbn [vec_nonzero_loop length seq combine filter snd]; [reflexivity|]. rewrite IH. now destruct (is_zero v).
Qed.

Lemma max_min_spec {T} (lt : T -> T -> bool) : strict_order lt -> forall d : dense T,
  (forall m, mat_max lt d = Some m -> In m (data d) /\ forall v, In v (data d) -> lt m v = false) /\
  (forall m, mat_min lt d = Some m -> In m (data d) /\ forall v, In v (data d) -> lt v m = false) /\
  (mat_max lt d = None <-> data d = []) /\ (mat_min lt d = None <-> data d = []).
Proof.
  intros O d. unfold mat_max, mat_min. destruct (data d) as [|v vs].
  - repeat split; try discriminate.
  - split; [|split; [|split; split; discriminate]]; intros m E; injection E as <-.
    + exact (max_loop_spec lt O vs v).
    + exact (min_loop_spec lt O vs v).
Qed.
