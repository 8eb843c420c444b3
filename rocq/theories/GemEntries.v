(** * Proofs: the entries of the products *)
From Coq Require Import ZArith String Bool List Lia Arith Permutation.
From Verif Require Import AsmModel AsmLemmas AsmSpec DenseModel DenseLemmas ArithModel AsmCalls.
From Verif Require GemModel ArithProofs.
From Verif Require Import GemSpec GemCalls GemProofs.
Import ListNotations.
Open Scope string_scope.
Open Scope list_scope.
Open Scope nat_scope.

Section Entries.
Variable A : lanes.
Variable is_zero : lane A -> bool.
Hypothesis add_comm : forall a b, bin A Add a b = bin A Add b a.
Notation L := (lane A).
Notation mul_row_list := (ArithModel.mul_row (zero A) (bin A Add) (bin A Mul) is_zero).
Notation mul_rows_list := (ArithModel.mul_rows (zero A) (bin A Add) (bin A Mul) is_zero).
Notation mul_t_list := (ArithModel.mul_t_loop (zero A) (bin A Add) (bin A Mul)).
Notation "l .[ i ]" := (nth i l (zero A)) (at level 2, format "l .[ i ]").
Notation keep := (filter (fun p => negb (is_zero (fst p)))).

Lemma seq_cons {T} (f : nat -> T) n : map f (seq 0 (S n)) = f 0 :: map (fun t => f (S t)) (seq 0 n).
Proof. cbn [seq map]. now rewrite <- seq_shift, map_map. Qed.
Lemma mul_row_dot bc b vs : forall l ct acc p, length ct = bc -> (l + length vs) * bc <= length b -> p < bc -> dot_of A ct.[p] acc ->
  dot_of A (mul_row_list bc l vs b ct).[p] (acc ++ keep (map (fun t => (vs.[t], b.[(l + t) * bc + p])) (seq 0 (length vs)))).
Proof.
  induction vs as [|v vs IH]; intros l ct acc p Lc Hb Hp H; cbn [ArithModel.mul_row].
  - cbn. now rewrite app_nil_r.
  - cbn [length] in *. rewrite seq_cons. cbn [nth filter fst]. rewrite Nat.add_0_r.
    assert (Ls : length (DenseModel.slice b (l * bc) (l * bc + bc)) = length ct) by (rewrite slice_length by nia; lia).
    rewrite (map_ext _ (fun t => (vs.[t], b.[(S l + t) * bc + p]))) by (intros t; f_equal; f_equal; nia).
    destruct (is_zero v) eqn:E; cbn [negb].
    + apply IH; auto; lia.
    + change (acc ++ (v, b.[l * bc + p]) :: ?k) with (acc ++ [(v, b.[l * bc + p])] ++ k). rewrite app_assoc. apply IH; [now rewrite (ArithProofs.axpy_length (zero A))|lia|exact Hp|].
      rewrite (ArithProofs.axpy_nth (zero A)) by (auto; lia). rewrite (ArithProofs.slice_nth (zero A)) by lia. eapply dot_add; [exact H|apply dot_one|]. reflexivity.
Qed.
Lemma mul_rows_dot ac bc n a b : length a = n * ac -> length b = ac * bc -> forall fuel i c, i + fuel = n -> length c = n * bc ->
  (forall x y, i <= x -> x < n -> y < bc -> c.[x * bc + y] = zero A) ->
  length (mul_rows_list ac bc a b i fuel c) = n * bc /\
  forall x y, x < n -> y < bc ->
    if i <=? x then dot_of A (mul_rows_list ac bc a b i fuel c).[x * bc + y] (keep (map (fun t => (a.[x * ac + t], b.[t * bc + y])) (seq 0 ac)))
    else (mul_rows_list ac bc a b i fuel c).[x * bc + y] = c.[x * bc + y].
Proof.
  intros La Lb. induction fuel as [|fuel IH]; intros i c Hi Lc Hz; cbn [ArithModel.mul_rows].
  - split; [exact Lc|]. intros x y Hx Hy. destruct (Nat.leb_spec i x); [lia|reflexivity].
  - assert (Lv : length (DenseModel.slice a (i * ac) (i * ac + ac)) = ac) by (rewrite slice_length by nia; lia).
    assert (Lo : length (DenseModel.slice c (i * bc) (i * bc + bc)) = bc) by (rewrite slice_length by nia; lia).
    set (row := mul_row_list bc 0 (DenseModel.slice a (i * ac) (i * ac + ac)) b (DenseModel.slice c (i * bc) (i * bc + bc))) in *.
    assert (L1 : length row = bc) by (apply mul_row_list_length; [exact Lo|lia]).
    assert (B : i * bc + length row <= length c) by (rewrite L1, Lc; nia).
    destruct (IH (S i) (blit c (i * bc) row)) as [Lr H]; [lia|now rewrite blit_length|..].
    { intros x y Hx Hn Hy. rewrite (ArithProofs.blit_nth (zero A)) by exact B. rewrite L1.
      destruct ((i * bc <=? x * bc + y) && (x * bc + y <? i * bc + bc)) eqn:Q; [|apply Hz; lia].
      apply andb_true_iff in Q. destruct Q as [_ Q]. apply Nat.ltb_lt in Q. nia. }
    split; [exact Lr|]. intros x y Hx Hy. specialize (H x y Hx Hy). rewrite (ArithProofs.blit_nth (zero A)) in H by exact B. rewrite L1 in H.
    destruct (Nat.leb_spec (S i) x) as [A1|A1], (Nat.leb_spec i x) as [A2|A2]; try lia.
    + exact H.
    + assert (x = i) by lia. subst x. rewrite H.
      rewrite (proj2 (Nat.leb_le (i * bc) (i * bc + y))), (proj2 (Nat.ltb_lt (i * bc + y) (i * bc + bc))) by lia. cbn [andb].
      replace (i * bc + y - i * bc) with y by lia.
      pose proof (mul_row_dot bc b (DenseModel.slice a (i * ac) (i * ac + ac)) 0 (DenseModel.slice c (i * bc) (i * bc + bc)) [] y Lo ltac:(lia) Hy) as D.
      rewrite Lv in D. cbn [app Nat.add] in D.
      assert (Q : map (fun t => (a.[i * ac + t], b.[t * bc + y])) (seq 0 ac) = map (fun t => ((DenseModel.slice a (i * ac) (i * ac + ac)).[t], b.[t * bc + y])) (seq 0 ac)).
      { apply map_ext_in. intros t Ht. apply in_seq in Ht. rewrite (ArithProofs.slice_nth (zero A)) by lia. reflexivity. }
      rewrite Q. apply D. rewrite (ArithProofs.slice_nth (zero A)) by lia. rewrite Hz by lia. constructor.
    + rewrite H. assert (Q : x * bc + y < i * bc) by nia. rewrite (proj2 (Nat.leb_gt (i * bc) (x * bc + y))) by lia. reflexivity.
Qed.
Lemma mul_t_dot dc a n : length a = n * dc -> forall other from out acc p, length out = dc -> from + length other = n -> p < dc -> dot_of A out.[p] acc ->
  dot_of A (mul_t_list dc (from * dc) a other out).[p] (acc ++ map (fun t => (other.[t], a.[(from + t) * dc + p])) (seq 0 (length other))).
Proof.
  intros La. induction other as [|v other IH]; intros from out acc p Lo Hf Hp H; cbn [ArithModel.mul_t_loop].
  - cbn. now rewrite app_nil_r.
  - cbn [length] in *. rewrite seq_cons. cbn [nth]. rewrite Nat.add_0_r. replace (from * dc + dc) with (S from * dc) by lia.
    assert (Ls : length (DenseModel.slice a (from * dc) (S from * dc)) = length out) by (rewrite slice_length by nia; lia).
    rewrite (map_ext _ (fun t => (other.[t], a.[(S from + t) * dc + p]))) by (intros t; f_equal; f_equal; nia).
    change (acc ++ (v, a.[from * dc + p]) :: ?k) with (acc ++ [(v, a.[from * dc + p])] ++ k). rewrite app_assoc. apply IH; [now rewrite (ArithProofs.axpy_to_length (zero A))|lia|exact Hp|].
    rewrite axpy_to_list_nth by lia. rewrite (ArithProofs.slice_nth (zero A)) by lia. rewrite add_comm. eapply dot_add; [exact H|apply dot_one|]. reflexivity.
Qed.
Lemma mul_t_length dc a n : length a = n * dc -> forall other from out, length out = dc -> from + length other = n -> length (mul_t_list dc (from * dc) a other out) = dc.
Proof.
  intros La. induction other as [|v other IH]; intros from out Lo Hf; cbn [ArithModel.mul_t_loop]; [exact Lo|]. cbn [length] in Hf. replace (from * dc + dc) with (S from * dc) by lia.
  apply IH; [|lia]. rewrite (ArithProofs.axpy_to_length (zero A)); [exact Lo|]. rewrite slice_length by nia. lia.
Qed.
End Entries.
