(** * Lemmas about the vector machine *)
From Coq Require Import ZArith String Bool List Lia.
From Verif Require Import AsmModel.
Import ListNotations.

Section Machine.
Variable A : lanes.
Variable esize : Z.
Variable half : nat.
Variable F : frame A.
Notation L := (lane A).
Notation state := (state A).
Notation read := (read A esize).
Notation write := (write A esize).
Notation step := (step A esize half F).
Notation block := (block A esize half F).
Notation run := (run A esize half F).
Notation w_of := (lanes_of half).

(** ** Lists *)
Lemma map2_length f (a b : list L) : length a = length b -> length (map2 A f a b) = length a.
Proof. revert b. induction a as [| x a IH]; intros [| y b]; cbn; try lia. intros H. f_equal. apply IH. lia. Qed.
Lemma map2_app f (a b c d : list L) : length a = length b -> map2 A f (a ++ c) (b ++ d) = map2 A f a b ++ map2 A f c d.
Proof. revert b. induction a as [| x a IH]; intros [| y b]; cbn; try discriminate; [reflexivity|]. intros H. f_equal. apply IH. lia. Qed.
Lemma map2_firstn f n (a b : list L) : map2 A f (firstn n a) (firstn n b) = firstn n (map2 A f a b).
Proof. revert a b. induction n as [| n IH]; intros [| x a] [| y b]; cbn; try reflexivity. now rewrite IH. Qed.
Lemma map2_skipn f n (a b : list L) : length a = length b -> map2 A f (skipn n a) (skipn n b) = skipn n (map2 A f a b).
Proof. revert a b. induction n as [| n IH]; intros [| x a] [| y b] H; cbn in *; try reflexivity; try discriminate. apply IH. lia. Qed.
Lemma map2_nth_error f (a b : list L) i : nth_error (map2 A f a b) i = match nth_error a i, nth_error b i with Some x, Some y => Some (f x y) | _, _ => None end.
Proof. revert b i. induction a as [| x a IH]; intros [| y b] [| i]; cbn; try reflexivity; [destruct (nth_error a i); reflexivity | apply IH]. Qed.
Lemma firstn_add {T} (l : list T) a b : firstn (a + b) l = firstn a l ++ firstn b (skipn a l).
Proof. revert l. induction a as [| a IH]; intros l; [reflexivity|]. destruct l as [| x l]; cbn; [now rewrite firstn_nil|]. now rewrite IH. Qed.
Lemma skipn_add {T} (l : list T) a b : skipn (a + b) l = skipn b (skipn a l).
Proof. revert l. induction a as [| a IH]; intros l; [reflexivity|]. destruct l as [| x l]; cbn; [now rewrite skipn_nil | apply IH]. Qed.
Lemma firstn_len_app {T} (a b : list T) n : length a = n -> firstn n (a ++ b) = a.
Proof. intros <-. rewrite firstn_app, Nat.sub_diag, firstn_all. cbn. apply app_nil_r. Qed.
Lemma skipn_len_app {T} (a b : list T) n : length a = n -> skipn n (a ++ b) = b.
Proof. intros <-. rewrite skipn_app, Nat.sub_diag, skipn_all. reflexivity. Qed.

(** ** Memory *)
Lemma read_length m a n l : read m a n = Some l -> length l = n.
Proof.
  revert a l. induction n as [| n IH]; intros a l; cbn; [intros [= <-]; reflexivity|].
  destruct (m a); [|discriminate]. destruct (read m _ n) eqn:E; [|discriminate]. intros [= <-]. cbn. f_equal. eapply IH; eauto.
Qed.
Lemma read_app m a n k l : read m a (n + k) = Some l ->
  read m a n = Some (firstn n l) /\ read m (a + esize * Z.of_nat n) k = Some (skipn n l).
Proof.
  revert a l. induction n as [| n IH]; intros a l; cbn [Nat.add AsmModel.read].
  - intros H. split; [reflexivity|]. cbn [Z.of_nat]. rewrite Z.mul_0_r, Z.add_0_r. exact H.
  - destruct (m a); [|discriminate]. destruct (read m (a + esize) (n + k)) as [l'|] eqn:E; [|discriminate]. intros [= <-].
    destruct (IH _ _ E) as [H1 H2]. cbn [firstn skipn]. rewrite H1. split; [reflexivity|].
    replace (a + esize * Z.of_nat (S n))%Z with (a + esize + esize * Z.of_nat n)%Z by lia. exact H2.
Qed.
Lemma read_sub m a n l i k : read m a n = Some l -> i + k <= n ->
  read m (a + esize * Z.of_nat i) k = Some (firstn k (skipn i l)).
Proof.
  intros H Q. replace n with (i + (k + (n - i - k))) in H by lia. apply read_app in H. destruct H as [_ H].
  apply read_app in H. apply H.
Qed.
Lemma read_cell m a n l i : read m a n = Some l -> i < n -> m (a + esize * Z.of_nat i)%Z = nth_error l i /\ nth_error l i <> None.
Proof.
  revert a l i. induction n as [| n IH]; intros a l i; [lia|]. cbn [AsmModel.read].
  destruct (m a) as [x|] eqn:E; [|discriminate]. destruct (read m (a + esize) n) as [l'|] eqn:E'; [|discriminate]. intros [= <-] Q.
  destruct i as [| i]; cbn [nth_error].
  - change (Z.of_nat 0) with 0%Z. rewrite Z.mul_0_r, Z.add_0_r. split; [exact E | discriminate].
  - destruct (IH _ _ i E' ltac:(lia)) as [H1 H2]. split; [|exact H2].
    replace (a + esize * Z.of_nat (S i))%Z with (a + esize + esize * Z.of_nat i)%Z by lia. exact H1.
Qed.
Lemma read_ext m m' a n : (forall i, i < n -> m' (a + esize * Z.of_nat i)%Z = m (a + esize * Z.of_nat i)%Z) -> read m' a n = read m a n.
Proof.
  revert a. induction n as [| n IH]; intros a H; cbn [AsmModel.read]; [reflexivity|].
  pose proof (H 0 ltac:(lia)) as H0. change (Z.of_nat 0) with 0%Z in H0. rewrite Z.mul_0_r, Z.add_0_r in H0. rewrite H0.
  rewrite IH; [reflexivity|]. intros i Q. replace (a + esize + esize * Z.of_nat i)%Z with (a + esize * Z.of_nat (S i))%Z by lia. apply H. lia.
Qed.
Lemma read_intro m a l : (forall i, i < length l -> m (a + esize * Z.of_nat i)%Z = nth_error l i) -> read m a (length l) = Some l.
Proof.
  revert a. induction l as [| x l IH]; intros a H; cbn [AsmModel.read length]; [reflexivity|].
  pose proof (H 0 ltac:(cbn; lia)) as H0. change (Z.of_nat 0) with 0%Z in H0. rewrite Z.mul_0_r, Z.add_0_r in H0. rewrite H0. cbn [nth_error].
  rewrite IH; [reflexivity|]. intros i Q. replace (a + esize + esize * Z.of_nat i)%Z with (a + esize * Z.of_nat (S i))%Z by lia. apply (H (S i)). cbn. lia.
Qed.

Hypothesis esize_pos : (0 < esize)%Z.

Lemma write_app m a l1 l2 m1 : write m a l1 = Some m1 -> write m a (l1 ++ l2) = write m1 (a + esize * Z.of_nat (length l1)) l2.
Proof.
  revert m a. induction l1 as [| x l1 IH]; intros m a; cbn [AsmModel.write app length].
  - intros [= <-]. change (Z.of_nat 0) with 0%Z. now rewrite Z.mul_0_r, Z.add_0_r.
  - destruct (m a); [|discriminate]. intros H. rewrite (IH _ _ H). f_equal. lia.
Qed.
Lemma write_frame m a l m' b : write m a l = Some m' -> (forall i, i < length l -> b <> (a + esize * Z.of_nat i)%Z) -> m' b = m b.
Proof.
  revert m a. induction l as [| x l IH]; intros m a; cbn [AsmModel.write length]; [intros [= <-]; reflexivity|].
  destruct (m a); [|discriminate]. intros H N. rewrite (IH _ _ H).
  - destruct (Z.eqb_spec b a) as [-> | Q]; [|reflexivity]. exfalso. apply (N 0); [lia|]. change (Z.of_nat 0) with 0%Z. lia.
  - intros i Q. replace (a + esize + esize * Z.of_nat i)%Z with (a + esize * Z.of_nat (S i))%Z by lia. apply N. lia.
Qed.
Lemma write_get m a l m' i : write m a l = Some m' -> i < length l -> m' (a + esize * Z.of_nat i)%Z = nth_error l i.
Proof.
  revert m a i. induction l as [| x l IH]; intros m a i; cbn [AsmModel.write length]; [lia|].
  destruct (m a); [|discriminate]. intros H Q. destruct i as [| i].
  - cbn [nth_error]. change (Z.of_nat 0) with 0%Z. rewrite Z.mul_0_r, Z.add_0_r.
    rewrite (write_frame _ _ _ _ a H); [now rewrite Z.eqb_refl|]. intros j J. nia.
  - cbn [nth_error]. replace (a + esize * Z.of_nat (S i))%Z with (a + esize + esize * Z.of_nat i)%Z by lia. apply (IH _ _ i H). lia.
Qed.
Lemma write_read m a l m' : write m a l = Some m' -> read m' a (length l) = Some l.
Proof. intros H. apply read_intro. intros i Q. now apply (write_get _ _ _ _ _ H). Qed.
(** writable cells *)
Definition cells (m : Z -> option L) (a : Z) (n : nat) : Prop := forall i, i < n -> m (a + esize * Z.of_nat i)%Z <> None.
Lemma write_cells m a l m' b n : write m a l = Some m' -> cells m b n -> cells m' b n.
Proof.
  revert m a. induction l as [| x l IH]; intros m a; cbn [AsmModel.write]; [intros [= <-]; auto|].
  destruct (m a) eqn:E; [|discriminate]. intros H C. apply (IH _ _ H). intros i Q. specialize (C i Q). destruct (Z.eqb_spec (b + esize * Z.of_nat i) a); [discriminate | exact C].
Qed.
Lemma write_some m a l : cells m a (length l) -> exists m', write m a l = Some m'.
Proof.
  revert m a. induction l as [| x l IH]; intros m a C; cbn [AsmModel.write]; [eauto|].
  pose proof (C 0 ltac:(cbn; lia)) as C0. change (Z.of_nat 0) with 0%Z in C0. rewrite Z.mul_0_r, Z.add_0_r in C0. destruct (m a) eqn:E; [|contradiction].
  apply IH. intros i Q. replace (a + esize + esize * Z.of_nat i)%Z with (a + esize * Z.of_nat (S i))%Z by lia.
  specialize (C (S i) ltac:(cbn; lia)). destruct (Z.eqb _ a); [discriminate | exact C].
Qed.
Lemma cells_sub m a n i k : cells m a n -> i + k <= n -> cells m (a + esize * Z.of_nat i) k.
Proof. intros C Q j J. replace (a + esize * Z.of_nat i + esize * Z.of_nat j)%Z with (a + esize * Z.of_nat (i + j))%Z by lia. apply C. lia. Qed.
Lemma read_cells m a n l : read m a n = Some l -> cells m a n.
Proof. intros H i Q. destruct (read_cell _ _ _ _ _ H Q) as [-> N]. exact N. Qed.

(** ** Execution *)
Lemma block_app a b st : block (a ++ b) st =
  match block a st with Some (st', Seq) => block b st' | r => r end.
Proof.
  revert st. induction a as [| i a IH]; intros st; cbn [AsmModel.block app]; [reflexivity|].
  destruct (step i st) as [[st' [| l |]]|]; auto.
Qed.
Lemma block_cons i is st st' : step i st = Some (st', Seq) -> block (i :: is) st = block is st'.
Proof. intros H. cbn [AsmModel.block]. now rewrite H. Qed.
(** from the blocks c and the state st the run comes to c' and st' *)
Definition reach (whole c : code) (st : state) (c' : code) (st' : state) : Prop :=
  exists n, forall fuel, run (n + fuel) whole c st = run fuel whole c' st'.
Lemma reach_refl whole c st : reach whole c st c st.
Proof. exists 0. reflexivity. Qed.
Lemma reach_trans whole c1 s1 c2 s2 c3 s3 : reach whole c1 s1 c2 s2 -> reach whole c2 s2 c3 s3 -> reach whole c1 s1 c3 s3.
Proof. intros [n H] [k K]. exists (n + k). intros fuel. rewrite <- Nat.add_assoc, H. apply K. Qed.
Lemma reach_fall whole l is c st st' : block is st = Some (st', Seq) -> reach whole ((l, is) :: c) st c st'.
Proof. intros H. exists 1. intros fuel. cbn [Nat.add AsmModel.run]. now rewrite H. Qed.
Lemma reach_goto whole l is c st st' k c' : block is st = Some (st', Goto k) -> from_label whole k = Some c' -> reach whole ((l, is) :: c) st c' st'.
Proof. intros H K. exists 1. intros fuel. cbn [Nat.add AsmModel.run]. now rewrite H, K. Qed.
Lemma reach_return whole l is c st st' c0 st0 : reach whole c0 st0 ((l, is) :: c) st -> block is st = Some (st', Return) ->
  exists fuel, run fuel whole c0 st0 = Some (Some st').
Proof. intros [n H] K. exists (n + 1). rewrite H. cbn [AsmModel.run]. now rewrite K. Qed.

(** the same but for the flags *)
Definition same (a b : state) : Prop := gpr A b = gpr A a /\ vec A b = vec A a /\ mem A b = mem A a /\ ret A b = ret A a.
Lemma same_refl a : same a a. Proof. repeat split. Qed.

(** A loop: the invariant I speaks of the number of elements that remain, which r holds. *)
Lemma loop (whole : code) l nx r (k : nat) body rest c' (I : nat -> state -> Prop) :
  0 < k -> from_label whole l = Some ((l, [CmpQ r (Z.of_nat k); Jl nx] ++ body ++ [Jmp l]) :: rest) -> from_label whole nx = Some c' ->
  (forall n st, I n st -> gpr A st r = Z.of_nat n) ->
  (forall n st st', I n st -> same st st' -> I n st') ->
  (forall n st, k <= n -> I n st -> exists st', block body st = Some (st', Seq) /\ I (n - k) st') ->
  forall n st, I n st -> exists n' st', n' < k /\ I n' st' /\ reach whole ((l, [CmpQ r (Z.of_nat k); Jl nx] ++ body ++ [Jmp l]) :: rest) st c' st'.
Proof.
  intros K0 Fl Fn Ir Is Ib n. induction n as [n IH] using (well_founded_induction lt_wf). intros st H.
  set (flags := mkState A (gpr A st) (vec A st) (mem A st) (Z.eqb (gpr A st r) (Z.of_nat k)) (Z.ltb (gpr A st r) (Z.of_nat k)) (ret A st)).
  assert (Hf : I n flags) by (apply (Is n st); [exact H | repeat split]).
  destruct (Nat.lt_ge_cases n k) as [Q | Q].
  - exists n, flags. split; [exact Q|]. split; [exact Hf|]. apply (reach_goto whole l _ rest st flags nx c'); [|exact Fn].
    cbn [AsmModel.block AsmModel.step app]. fold flags. replace (lf A flags) with true; [reflexivity|].
    cbn. symmetry. apply Z.ltb_lt. rewrite (Ir n st H). lia.
  - destruct (Ib n flags Q Hf) as (st1 & B1 & I1). destruct (IH (n - k) ltac:(lia) st1 I1) as (n' & st' & Q' & I' & R').
    exists n', st'. split; [exact Q'|]. split; [exact I'|]. eapply reach_trans; [|exact R'].
    apply (reach_goto whole l _ rest st st1 l); [|exact Fl].
    cbn [AsmModel.block AsmModel.step app]. fold flags. replace (lf A flags) with false by (cbn; symmetry; apply Z.ltb_ge; rewrite (Ir n st H); lia).
    rewrite block_app, B1. reflexivity.
Qed.
(** The same with a last loop, of one element a time, until none remains. *)
Lemma tail_loop (whole : code) l nx r body rest c' (I : nat -> state -> Prop) :
  from_label whole l = Some ((l, [CmpQ r 0; Je nx] ++ body ++ [Jmp l]) :: rest) -> from_label whole nx = Some c' ->
  (forall n st, I n st -> gpr A st r = Z.of_nat n) ->
  (forall n st st', I n st -> same st st' -> I n st') ->
  (forall n st, I (S n) st -> exists st', block body st = Some (st', Seq) /\ I n st') ->
  forall n st, I n st -> exists st', I 0 st' /\ reach whole ((l, [CmpQ r 0; Je nx] ++ body ++ [Jmp l]) :: rest) st c' st'.
Proof.
  intros Fl Fn Ir Is Ib n. induction n as [| n IH]; intros st H;
    set (flags := mkState A (gpr A st) (vec A st) (mem A st) (Z.eqb (gpr A st r) 0) (Z.ltb (gpr A st r) 0) (ret A st)).
  - exists flags. split; [apply (Is 0 st); [exact H | repeat split]|]. apply (reach_goto whole l _ rest st flags nx c'); [|exact Fn].
    cbn [AsmModel.block AsmModel.step app]. fold flags. replace (zf A flags) with true; [reflexivity|]. cbn. now rewrite (Ir 0 st H).
  - assert (Hf : I (S n) flags) by (apply (Is (S n) st); [exact H | repeat split]).
    destruct (Ib n flags Hf) as (st1 & B1 & I1). destruct (IH st1 I1) as (st' & I' & R'). exists st'. split; [exact I'|].
    eapply reach_trans; [|exact R']. apply (reach_goto whole l _ rest st st1 l); [|exact Fl].
    cbn [AsmModel.block AsmModel.step app]. fold flags.
    replace (zf A flags) with false by (cbn; symmetry; apply Z.eqb_neq; rewrite (Ir (S n) st H); lia). rewrite block_app, B1. reflexivity.
Qed.

(** ** Runs of similar instructions, each of which sets one register *)
Definition unroll {T} (n : nat) (f : nat -> T) : list T := map f (seq 0 n).
(** st' is st but for the registers from r0 to r0 + j - 1 *)
Definition same_but (r0 j : nat) (st st' : state) : Prop :=
  gpr A st' = gpr A st /\ mem A st' = mem A st /\ ret A st' = ret A st /\ (forall r, r < r0 \/ r0 + j <= r -> vec A st' r = vec A st r).
Lemma phase n (f : nat -> instr) r0 (P : nat -> list L -> Prop) st :
  (forall j st', j < n -> same_but r0 j st st' -> exists v, step (f j) st' = Some (set_vec A st' (r0 + j) v, Seq) /\ P j v) ->
  exists st', block (unroll n f) st = Some (st', Seq) /\ same_but r0 n st st' /\ (forall j, j < n -> P j (vec A st' (r0 + j))).
Proof.
  induction n as [| n IH]; intros H.
  - exists st. repeat split; auto. lia.
  - destruct IH as (st1 & B1 & S1 & P1); [intros j st' Q; apply H; lia|].
    destruct (H n st1 ltac:(lia) S1) as (v & Sv & Pv). destruct S1 as (G1 & M1 & R1 & V1).
    exists (set_vec A st1 (r0 + n) v). split; [|split].
    + unfold unroll in *. rewrite seq_S, map_app, block_app, B1. cbn [map Nat.add AsmModel.block]. now rewrite Sv.
    + repeat split; auto. intros r Q. cbn. destruct (Nat.eqb_spec r (r0 + n)); [lia|]. apply V1. lia.
    + intros j Q. cbn. destruct (Nat.eqb_spec (r0 + j) (r0 + n)) as [E | E]; [replace j with n by lia; exact Pv|].
      apply P1. lia.
Qed.
(** stores of consecutive registers *)
Lemma store_phase n s r0 b (v : nat -> list L) st :
  (forall j, j < n -> firstn (w_of s) (vec A st (r0 + j)) = v j /\ length (v j) = w_of s) ->
  forall m', write (mem A st) (gpr A st b) (concat (unroll n v)) = Some m' ->
  block (unroll n (fun j => Store s (r0 + j) b (esize * Z.of_nat (w_of s) * Z.of_nat j))) st = Some (set_mem A st m', Seq).
Proof.
  induction n as [| n IH]; intros H m' W.
  - cbn in W. injection W as <-. cbn. destruct st; reflexivity.
  - unfold unroll in *. rewrite seq_S, map_app, concat_app in W. cbn [map Nat.add concat] in W. rewrite app_nil_r in W.
    assert (Ln : length (concat (map v (seq 0 n))) = w_of s * n).
    { clear W m' IH. induction n as [| n IH]; [cbn; lia|]. rewrite seq_S, map_app, concat_app, app_length, IH by (intros j Q; apply H; lia).
      cbn [map Nat.add concat]. rewrite app_nil_r. destruct (H n ltac:(lia)) as [_ ->]. lia. }
    destruct (write (mem A st) (gpr A st b) (concat (map v (seq 0 n)))) as [m1|] eqn:W1.
    2:{ exfalso. clear -W W1. revert W W1. generalize (mem A st), (gpr A st b), (concat (map v (seq 0 n))). intros m a l. revert m a.
        induction l as [| x l IH]; intros m a; cbn [AsmModel.write app]; [discriminate|]. destruct (m a); [|discriminate]. apply IH. }
    rewrite (write_app _ _ _ _ _ W1), Ln in W.
    rewrite seq_S, map_app, block_app, (IH (fun j Q => H j ltac:(lia)) m1 eq_refl). cbn [map Nat.add AsmModel.block AsmModel.step mem gpr vec set_mem].
    destruct (H n ltac:(lia)) as [-> _]. replace (gpr A st b + esize * Z.of_nat (w_of s) * Z.of_nat n)%Z with (gpr A st b + esize * Z.of_nat (w_of s * n))%Z by lia.
    rewrite W. reflexivity.
Qed.
Lemma concat_unroll {T} (l : list T) w n : length l = w * n -> concat (unroll n (fun j => firstn w (skipn (w * j) l))) = l.
Proof.
  revert l. induction n as [| n IH]; intros l H.
  - cbn. destruct l; [reflexivity | cbn in H; lia].
  - unfold unroll. rewrite seq_S, map_app, concat_app. cbn [map Nat.add concat]. rewrite app_nil_r.
    transitivity (firstn (w * n) l ++ skipn (w * n) l); [|apply firstn_skipn]. f_equal.
    + rewrite <- (IH (firstn (w * n) l)) at 1 by (rewrite firstn_length; lia). f_equal. unfold unroll. apply map_ext_in.
      intros j Hj. apply in_seq in Hj. rewrite skipn_firstn_comm, firstn_firstn. f_equal. nia.
    + apply firstn_all2. rewrite skipn_length. lia.
Qed.
End Machine.
