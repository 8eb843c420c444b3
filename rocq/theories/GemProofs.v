(** * Proofs: MatrixMul and MulT *)
From Coq Require Import ZArith String Bool List Lia Arith.
From Verif Require Import AsmModel AsmLemmas AsmSpec DenseModel DenseLemmas ArithModel.
From Verif Require GemModel ArithProofs.
From Verif Require Import GemSpec GemCalls.
Import ListNotations.
Open Scope string_scope.
Open Scope list_scope.
Open Scope nat_scope.

Section Loops.
Variable A : lanes.
Variable esize : Z.
Variable half : nat.
Variable equal : lane A -> lane A -> bool.
Variable is_zero : lane A -> bool.
Notation L := (lane A).
Notation memory := (Z -> option L).
Notation slice := (AsmSpec.slice A esize).
Notation within := (within esize).
Notation sub := (sub esize).
Notation apart := (apart esize).
Notation call := (call A esize half equal).
Hypothesis esize_pos : (0 < esize)%Z.
Hypothesis add_comm : forall a b, bin A Add a b = bin A Add b a.
Hypothesis mul_comm : forall a b, bin A Mul a b = bin A Mul b a.
Notation axpy_list := (ArithModel.axpy (zero A) (bin A Add) (bin A Mul)).
Notation axpy_to_list := (ArithModel.axpy_to (zero A) (bin A Add) (bin A Mul)).

Lemma within_dec a n p : {within a n p} + {~ within a n p}.
Proof.
  destruct (Z_le_dec a p) as [H1|H1]; [|right; intros (i & Hi & E); nia].
  destruct (Z.eq_dec ((p - a) mod esize) 0) as [H2|H2].
  - destruct (lt_dec (Z.to_nat ((p - a) / esize)) n) as [H3|H3].
    + left. exists (Z.to_nat ((p - a) / esize)). split; [exact H3|]. rewrite Z2Nat.id by (apply Z.div_pos; lia). pose proof (Z.div_mod (p - a) esize ltac:(lia)). lia.
    + right. intros (i & Hi & E). apply H3. replace (p - a)%Z with (Z.of_nat i * esize)%Z by lia. rewrite Z.div_mul by lia. now rewrite Nat2Z.id.
  - right. intros (i & Hi & E). apply H2. replace (p - a)%Z with (Z.of_nat i * esize)%Z by lia. apply Z.mod_mul. lia.
Qed.
Lemma apart_same a b n : apart a n b n -> same_or_apart esize a b n.
Proof. intros H i j Hi Hj E. exfalso. apply (H (a + esize * Z.of_nat i)%Z); [now exists i|]. exists j. now rewrite E. Qed.
Lemma same_same a n : same_or_apart esize a a n.
Proof. intros i j Hi Hj E. nia. Qed.
Lemma slice_keep m m' a l b n : slice m a l -> (forall p, ~ within b n p -> m' p = m p) -> apart a (length l) b n -> slice m' a l.
Proof.
  intros S F D i v H. rewrite F; [now apply S|]. intros W. apply (D (a + esize * Z.of_nat i)%Z); [|exact W]. exists i. split; [|reflexivity].
  apply nth_error_Some. congruence.
Qed.
Lemma within_sub a n i k p : i + k <= n -> within (a + esize * Z.of_nat i) k p -> within a n p.
Proof. intros H (j & Hj & ->). exists (i + j). split; [lia|]. nia. Qed.
Lemma apart_sub a n b k i j : apart a n b k -> i + j <= k -> apart a n (b + esize * Z.of_nat i) j.
Proof. intros H Q p W1 W2. apply (H p W1). eapply within_sub; eauto. Qed.
Lemma apart_sub_l a n b k i j : apart a n b k -> i + j <= n -> apart (a + esize * Z.of_nat i) j b k.
Proof. intros H Q p W1 W2. apply (H p); [|exact W2]. eapply within_sub; eauto. Qed.
Lemma slice_sub m a l i j : slice m a l -> slice m (a + esize * Z.of_nat i) (DenseModel.slice l i j).
Proof.
  intros S k v H. replace (a + esize * Z.of_nat i + esize * Z.of_nat k)%Z with (a + esize * Z.of_nat (i + k))%Z by nia. apply S.
  unfold DenseModel.slice in H. destruct (Nat.lt_ge_cases k (length (firstn (j - i) (skipn i l)))) as [Q|Q].
  - rewrite <- (firstn_skipn (i) l) at 1. rewrite nth_error_app2; rewrite firstn_length; [|].
    + destruct (Nat.le_gt_cases (length l) i) as [G|G]; [rewrite skipn_all2 in H by lia; rewrite firstn_nil in H; destruct k; discriminate|].
      replace (i + k - Nat.min i (length l)) with k by lia.
      rewrite <- (firstn_skipn (j - i) (skipn i l)), nth_error_app1 by exact Q. exact H.
    + lia.
  - apply nth_error_None in Q. congruence.
Qed.
Lemma nth_some {T} (l : list T) d i : i < length l -> nth_error l i = Some (nth i l d).
Proof. intros H. now apply nth_error_nth'. Qed.

Lemma call_mono c farg fr m (Q P : memory -> Prop) : call c farg fr m Q -> (forall m', Q m' -> P m') -> call c farg fr m P.
Proof. intros H K st Em Ea. destruct (H st Em Ea) as (st' & R & V). exists st'. auto. Qed.
(** what axpy leaves *)
Lemma axpy_call c v x y lx ly m : computes_axpy A esize half equal c -> slice m (ptr x) lx -> slice m (ptr y) ly -> len x = length lx -> len y = length ly -> length lx = length ly ->
  apart (ptr x) (len x) (ptr y) (len y) -> (ptr y mod esize = 0)%Z ->
  call c (fun _ => v) (slice_args "x" x ++ slice_args "y" y) m (fun m' => slice m' (ptr y) (axpy_list v lx ly) /\ (forall p, ~ within (ptr y) (len y) p -> m' p = m p)).
Proof.
  intros H Sx Sy Lx Ly E D Al st Hm Ha. subst m. destruct (H (fun _ => v) st (ptr x) (ptr y) lx ly) as (st' & R & V & F); auto.
  - rewrite Ha. reflexivity.
  - rewrite Ha. reflexivity.
  - rewrite Ha. cbn. now rewrite Lx.
  - rewrite Ha. cbn. now rewrite Ly.
  - apply apart_same. replace (Nat.min (length lx) (length ly)) with (len x) by lia. replace (len x) with (len y) at 2 by lia. exact D.
  - exists st'. split; [exact R|]. split.
    + intros i a Hi. assert (Hy : i < length ly). { rewrite <- (ArithProofs.axpy_length (zero A) (bin A Add) (bin A Mul) v lx ly E). apply nth_error_Some. congruence. }
      assert (Hx : i < length lx) by lia. rewrite (V i _ _ (nth_some lx (zero A) i Hx) (nth_some ly (zero A) i Hy)). rewrite <- Hi. symmetry.
      rewrite (nth_some _ (zero A)) by (rewrite (ArithProofs.axpy_length (zero A)) by exact E; exact Hy). f_equal.
      rewrite ArithProofs.axpy_nth by auto. rewrite add_comm. f_equal. apply mul_comm.
    + intros p W. apply F. replace (Nat.min (length lx) (length ly)) with (len y) by lia. exact W.
Qed.
Lemma axpy_to_list_nth v lx ly i : length lx = length ly -> i < length ly -> nth i (axpy_to_list v lx ly) (zero A) = bin A Add (bin A Mul v (nth i lx (zero A))) (nth i ly (zero A)).
Proof.
  intros E Hi. unfold ArithModel.axpy_to. destruct (ArithProofs.loop_up_spec (zero A) (fun i w => bin A Add (bin A Mul v (nth i lx (zero A))) w) _ ltac:(intros; reflexivity) (length lx) 0 ly ltac:(lia)) as [_ H].
  rewrite H by exact Hi. replace ((0 <=? i) && (i <? 0 + length lx)) with true; [reflexivity|]. symmetry. apply andb_true_iff. split; [apply Nat.leb_le|apply Nat.ltb_lt]; lia.
Qed.
Lemma axpy_to_call c v x y lx ly m : computes_axpy_to A esize half equal c -> slice m (ptr x) lx -> slice m (ptr y) ly -> len x = length lx -> len y = length ly -> length lx = length ly ->
  apart (ptr x) (len x) (ptr y) (len y) -> (ptr y mod esize = 0)%Z ->
  call c (fun _ => v) (slice_args "dst" y ++ slice_args "x" x ++ slice_args "y" y) m (fun m' => slice m' (ptr y) (axpy_to_list v lx ly) /\ (forall p, ~ within (ptr y) (len y) p -> m' p = m p)).
Proof.
  intros H Sx Sy Lx Ly E D Al st Hm Ha. subst m. assert (En : Nat.min (Nat.min (length lx) (length ly)) (length ly) = len y) by lia.
  destruct (H (fun _ => v) st (ptr y) (ptr x) (ptr y) ly lx ly) as (st' & R & V & F); rewrite ?Ha; auto.
  - cbn. now rewrite Ly.
  - cbn. now rewrite Lx.
  - cbn. now rewrite Ly.
  - rewrite En. apply apart_same. replace (len y) with (len x) at 1 by lia. exact D.
  - apply same_same.
  - rewrite En in V, F. exists st'. split; [exact R|]. split; [|exact F].
    intros i a Hi. assert (Hy : i < length ly). { rewrite <- (ArithProofs.axpy_to_length (zero A) (bin A Add) (bin A Mul) v lx ly E). apply nth_error_Some. congruence. }
    assert (Hx : i < length lx) by lia. rewrite (V i _ _ ltac:(lia) (nth_some lx (zero A) i Hx) (nth_some ly (zero A) i Hy)). rewrite <- Hi. symmetry.
    rewrite (nth_some _ (zero A)) by (rewrite (ArithProofs.axpy_to_length (zero A)) by exact E; exact Hy). f_equal.
    rewrite axpy_to_list_nth by auto. f_equal. apply mul_comm.
Qed.

(** ** MatrixMul *)
Notation mul_row_list := (ArithModel.mul_row (zero A) (bin A Add) (bin A Mul) is_zero).
Notation mul_rows_list := (ArithModel.mul_rows (zero A) (bin A Add) (bin A Mul) is_zero).
Lemma sub_some s i j : i <= j -> j <= len s -> sub s i j = Some (mkSlice (ptr s + esize * Z.of_nat i)%Z (j - i)).
Proof. intros H K. unfold GemCalls.sub. rewrite (proj2 (Nat.leb_le i j) H), (proj2 (Nat.leb_le j (len s)) K). reflexivity. Qed.
Lemma mul_row_list_length bc b vs : forall l ct, length ct = bc -> (l + length vs) * bc <= length b -> length (mul_row_list bc l vs b ct) = bc.
Proof.
  induction vs as [|v vs IH]; intros l ct Lc Hb; cbn [ArithModel.mul_row]; [exact Lc|]. cbn [length] in Hb. apply IH; [|lia].
  destruct (is_zero v); [exact Lc|]. rewrite (ArithProofs.axpy_length (zero A)); [exact Lc|]. rewrite slice_length by nia. lia.
Qed.
Lemma mul_row_ok c bc row b ct lr lb (Q : memory -> Prop) : computes_axpy A esize half equal c -> len row = length lr -> len b = length lb -> len ct = bc ->
  apart (ptr row) (len row) (ptr ct) bc -> apart (ptr b) (len b) (ptr ct) bc -> (ptr ct mod esize = 0)%Z -> length lr * bc <= length lb ->
  forall k l lc m, l + k = length lr -> slice m (ptr row) lr -> slice m (ptr b) lb -> slice m (ptr ct) lc -> length lc = bc ->
  (forall m', slice m' (ptr ct) (mul_row_list bc l (skipn l lr) lb lc) -> (forall p, ~ within (ptr ct) bc p -> m' p = m p) -> Q m') ->
  mul_row A esize half equal is_zero c bc row b ct l k m Q.
Proof.
  intros H Lr Lb Lct Dr Db Al Sz. induction k as [|k IH]; intros l lc m Hl Sr Sb Sc Lc K.
  - cbn. apply K; [|auto]. rewrite skipn_all2 by lia. exact Sc.
  - assert (Hv : l < length lr) by lia. set (v := nth l lr (zero A)).
    assert (Ev : skipn l lr = v :: skipn (S l) lr). { clear -Hv. unfold v. clear v. revert lr Hv. induction l as [|l IH]; intros [|a lr] H; cbn in *; try lia; [reflexivity|]. apply IH. lia. }
    set (lx := DenseModel.slice lb (l * bc) (l * bc + bc)). assert (Llx : length lx = bc) by (unfold lx; rewrite slice_length by nia; lia).
    rewrite Ev in K. cbn [ArithModel.mul_row] in K. fold lx in K.
    exists v. split; [unfold get; rewrite Lr, (proj2 (Nat.ltb_lt _ _) Hv); apply Sr; now apply nth_some|].
    destruct (is_zero v) eqn:Z; [apply (IH (S l) lc); auto; lia|].
    exists (mkSlice (ptr b + esize * Z.of_nat (l * bc))%Z bc). split; [rewrite sub_some by nia; f_equal; f_equal; lia|].
    apply call_mono with (Q := fun m' => slice m' (ptr ct) (axpy_list v lx lc) /\ (forall p, ~ within (ptr ct) (len ct) p -> m' p = m p)).
    { apply axpy_call; cbn [ptr len]; auto; try lia.
      - now apply slice_sub.
      - rewrite Lct. apply (apart_sub_l _ (len b)); [exact Db|]. nia. }
    intros m1 (S1 & F1). rewrite Lct in F1. apply (IH (S l) (axpy_list v lx lc)).
    + lia.
    + eapply slice_keep; [exact Sr|exact F1|]. now rewrite <- Lr.
    + eapply slice_keep; [exact Sb|exact F1|]. now rewrite <- Lb.
    + exact S1.
    + rewrite (ArithProofs.axpy_length (zero A)); lia.
    + intros m' S' F'. apply K; [exact S'|]. intros p W. rewrite F', F1; auto.
Qed.
Lemma slice_blit m m' a l i k src : slice m a l -> i + length src <= length l -> k = length src -> slice m' (a + esize * Z.of_nat i) src -> (forall p, ~ within (a + esize * Z.of_nat i) k p -> m' p = m p) -> slice m' a (blit l i src).
Proof.
  intros S Q -> S' F j v H. rewrite nth_blit in H by exact Q. destruct ((i <=? j) && (j <? i + length src)) eqn:E.
  - apply andb_true_iff in E. destruct E as [E1 E2]. apply Nat.leb_le in E1. apply Nat.ltb_lt in E2.
    replace (a + esize * Z.of_nat j)%Z with (a + esize * Z.of_nat i + esize * Z.of_nat (j - i))%Z by nia. now apply S'.
  - rewrite F; [now apply S|]. intros (t & Ht & Et). assert (j = i + t) by nia. subst j. apply andb_false_iff in E. destruct E as [E|E]; [apply Nat.leb_gt in E|apply Nat.ltb_ge in E]; lia.
Qed.
Lemma MatrixMul_ok c n ac bc a b o la lb (Q : memory -> Prop) : computes_axpy A esize half equal c -> len a = length la -> len b = length lb -> length la = n * ac -> length lb = ac * bc -> len o = n * bc ->
  apart (ptr a) (len a) (ptr o) (len o) -> apart (ptr b) (len b) (ptr o) (len o) -> (ptr o mod esize = 0)%Z ->
  forall k i lo m, i + k = n -> slice m (ptr a) la -> slice m (ptr b) lb -> slice m (ptr o) lo -> length lo = n * bc ->
  (forall m', slice m' (ptr o) (mul_rows_list ac bc la lb i k lo) -> (forall p, ~ within (ptr o) (len o) p -> m' p = m p) -> Q m') ->
  mul_rows A esize half equal is_zero c ac bc a b o i k m Q.
Proof.
  intros H La Lb La' Lb' Lo Da Db Al. induction k as [|k IH]; intros i lo m Hi Sa Sb So Llo K.
  - cbn. apply K; auto.
  - set (ct := mkSlice (ptr o + esize * Z.of_nat (i * bc))%Z bc). set (row := mkSlice (ptr a + esize * Z.of_nat (i * ac))%Z ac).
    set (lr := DenseModel.slice la (i * ac) (i * ac + ac)). set (lc := DenseModel.slice lo (i * bc) (i * bc + bc)).
    assert (Llr : length lr = ac) by (unfold lr; rewrite slice_length by nia; lia). assert (Llc : length lc = bc) by (unfold lc; rewrite slice_length by nia; lia).
    exists ct, row. split; [|split]; [rewrite sub_some by nia; unfold ct; f_equal; f_equal; lia|rewrite sub_some by nia; unfold row; f_equal; f_equal; lia|].
    apply (mul_row_ok c bc row b ct lr lb _ H) with (lc := lc); cbn [ptr len ct row]; auto; try lia.
    + apply (apart_sub _ _ _ (len o)); [|nia]. apply (apart_sub_l _ (len a)); [exact Da|nia].
    + apply (apart_sub _ _ _ (len o)); [exact Db|nia].
    + rewrite Z.add_mod, Al, (Z.mul_comm esize), Z.mod_mul by lia. reflexivity.
    + now apply slice_sub.
    + now apply slice_sub.
    + intros m1 S1 F1. cbn [skipn] in S1. cbn [ptr ct] in S1, F1.
      assert (L1 : length (mul_row_list bc 0 lr lb lc) = bc) by (apply mul_row_list_length; [exact Llc|lia]).
      assert (Fo : forall p, ~ within (ptr o) (len o) p -> m1 p = m p). { intros p W. apply F1. intros W'. apply W. eapply within_sub; [|exact W']. nia. }
      apply (IH (S i) (blit lo (i * bc) (mul_row_list bc 0 lr lb lc))).
      * lia.
      * eapply slice_keep; [exact Sa|exact Fo|]. now rewrite <- La.
      * eapply slice_keep; [exact Sb|exact Fo|]. now rewrite <- Lb.
      * eapply slice_blit; [exact So|rewrite L1; nia|symmetry; exact L1|exact S1|exact F1].
      * rewrite blit_length; [exact Llo|]. rewrite L1. nia.
      * intros m' S' F'. apply K; [exact S'|]. intros p W. rewrite F', Fo; auto.
Qed.

(** ** MulT *)
Notation mul_t_list := (ArithModel.mul_t_loop (zero A) (bin A Add) (bin A Mul)).
Lemma MulT_ok c dc d ot o ld lt (Q : memory -> Prop) : computes_axpy_to A esize half equal c -> len d = length ld -> len ot = length lt -> length ld = length lt * dc -> len o = dc ->
  apart (ptr d) (len d) (ptr o) dc -> apart (ptr ot) (len ot) (ptr o) dc -> (ptr o mod esize = 0)%Z ->
  forall k i lo m, i + k = length lt -> slice m (ptr d) ld -> slice m (ptr ot) lt -> slice m (ptr o) lo -> length lo = dc ->
  (forall m', slice m' (ptr o) (mul_t_list dc (i * dc) ld (skipn i lt) lo) -> (forall p, ~ within (ptr o) dc p -> m' p = m p) -> Q m') ->
  mul_t A esize half equal c dc (i * dc) d ot o i k m Q.
Proof.
  intros H Ld Lt Ld' Lo Dd Dt Al. induction k as [|k IH]; intros i lo m Hi Sd St So Llo K.
  - cbn. apply K; [|auto]. rewrite skipn_all2 by lia. exact So.
  - assert (Hv : i < length lt) by lia. set (v := nth i lt (zero A)).
    assert (Ev : skipn i lt = v :: skipn (S i) lt). { clear -Hv. unfold v. clear v. revert lt Hv. induction i as [|l IH]; intros [|a lr] H; cbn in *; try lia; [reflexivity|]. apply IH. lia. }
    set (lx := DenseModel.slice ld (i * dc) (i * dc + dc)). assert (Llx : length lx = dc) by (unfold lx; rewrite slice_length by nia; lia).
    rewrite Ev in K. cbn [ArithModel.mul_t_loop] in K. fold lx in K.
    exists v, (mkSlice (ptr d + esize * Z.of_nat (i * dc))%Z dc).
    split; [unfold get; rewrite Lt, (proj2 (Nat.ltb_lt _ _) Hv); apply St; now apply nth_some|]. split; [rewrite sub_some by nia; f_equal; f_equal; lia|].
    apply call_mono with (Q := fun m' => slice m' (ptr o) (axpy_to_list v lx lo) /\ (forall p, ~ within (ptr o) (len o) p -> m' p = m p)).
    { apply axpy_to_call; cbn [ptr len]; auto; try lia.
      - now apply slice_sub.
      - rewrite Lo. apply (apart_sub_l _ (len d)); [exact Dd|]. nia. }
    intros m1 (S1 & F1). rewrite Lo in F1. replace (i * dc + dc) with (S i * dc) in * by lia. apply (IH (S i) (axpy_to_list v lx lo)).
    + lia.
    + eapply slice_keep; [exact Sd|exact F1|]. now rewrite <- Ld.
    + eapply slice_keep; [exact St|exact F1|]. now rewrite <- Lt.
    + exact S1.
    + rewrite (ArithProofs.axpy_to_length (zero A)); lia.
    + intros m' S' F'. apply K; [exact S'|]. intros p W. rewrite F', F1; auto.
Qed.
End Loops.
