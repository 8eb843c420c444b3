(** * C64, C65: matrix products and cumulative sums on amd64 *)
From Coq Require Import ZArith String Bool Lia List Permutation Reals Lra.
From Flocq Require Import Core BinarySingleNaN.
From Verif Require Import FloatModel NumModel NumSpec AsmModel AsmCalls AsmSpec AsmFloatSpec AsmFloat AsmFloat2.
From Verif Require Import GemCode GemSpec GemCalls GemFloatSpec GemAxpy4 GemGemv2 GemCumSum GemProofs GemFloat.
From Verif Require ArithModel PropsAsm.
Import ListNotations.
Local Open Scope nat_scope.
Local Open Scope string_scope.

(** ** C64: the kernels, for any arithmetic *)
Theorem C64_axpy : forall (A : lanes) equal,
  computes_axpy A 4 4 equal axpy_unitary32 /\ computes_axpy A 8 2 equal axpy_unitary64 /\
  computes_axpy_to A 4 4 equal axpy_unitary_to32 /\ computes_axpy_to A 8 2 equal axpy_unitary_to64.
Proof. intros A e. split; [|split; [|split]]; [apply axpy32_ok | apply axpy64_ok | apply axpy_to32_ok | apply axpy_to64_ok]. Qed.
Print Assumptions C64_axpy.
Theorem C64_gemv : forall (A : lanes) equal, computes_gemv A 8 2 equal gemv_n64.
Proof. exact gemv_ok. Qed.
Print Assumptions C64_gemv.
Theorem C64_cumsum_kernel : forall (A : lanes) equal, computes_cumsum A 8 2 equal cum_sum64.
Proof. exact cumsum_ok. Qed.
Print Assumptions C64_cumsum_kernel.

(** ** C64: the methods in floating point *)
(** Mul into a fresh slice of zeros: on every processor and wherever the slices lie, it ends without a fault, every entry is a sum
    of the products of its row and its column, and no other cell changes. *)
Theorem C64_mul : forall d c rows cols bc a b o la lb m,
  length la = rows * cols -> length lb = cols * bc ->
  holds (esize_of d) m (ptr a) (len a) la -> holds (esize_of d) m (ptr b) (len b) lb -> holds (esize_of d) m (ptr o) (len o) (repeat fzero (rows * bc)) ->
  apart (esize_of d) (ptr a) (len a) (ptr o) (len o) -> apart (esize_of d) (ptr b) (len b) (ptr o) (len o) -> (ptr b mod esize_of d = 0)%Z -> (ptr o mod esize_of d = 0)%Z ->
  MatMul d c rows cols bc a b o m (mul_post d rows cols bc la lb o m).
Proof. exact mul_ok. Qed.
Print Assumptions C64_mul.
(** With several columns the result is that of the Go code without assembly, bit for bit. *)
Theorem C64_same_as_plain : forall d c rows cols bc a b o la lb m, bc <> 1 ->
  length la = rows * cols -> length lb = cols * bc ->
  holds (esize_of d) m (ptr a) (len a) la -> holds (esize_of d) m (ptr b) (len b) lb -> holds (esize_of d) m (ptr o) (len o) (repeat fzero (rows * bc)) ->
  apart (esize_of d) (ptr a) (len a) (ptr o) (len o) -> apart (esize_of d) (ptr b) (len b) (ptr o) (len o) -> (ptr o mod esize_of d = 0)%Z ->
  MatMul d c rows cols bc a b o m (fun m' =>
    holds (esize_of d) m' (ptr o) (len o) (ArithModel.mul_rows fzero fadd fmul go_zero cols bc la lb 0 rows (repeat fzero (rows * bc)))).
Proof.
  intros d c rows cols bc a b o la lb m N La Lb Ha Hb Ho Da Db Al. unfold MatMul. rewrite (proj2 (Nat.eqb_neq bc 1) N).
  apply (matrix_mul_ok d rows cols bc a b o la lb m); auto.
Qed.
Print Assumptions C64_same_as_plain.
(** MulT: entry p is a sum of the products of column p and the vector, the same as without assembly. *)
Theorem C64_mul_t : forall d cols a b o la lt m, length la = length lt * cols ->
  holds (esize_of d) m (ptr a) (len a) la -> holds (esize_of d) m (ptr b) (len b) lt -> holds (esize_of d) m (ptr o) (len o) (repeat fzero cols) ->
  apart (esize_of d) (ptr a) (len a) (ptr o) (len o) -> apart (esize_of d) (ptr b) (len b) (ptr o) (len o) -> (ptr o mod esize_of d = 0)%Z ->
  MatMulT d cols a b o m (fun m' => mul_t_post d cols la lt o m m' /\
    holds (esize_of d) m' (ptr o) (len o) (ArithModel.mul_t_loop fzero fadd fmul cols 0 la lt (repeat fzero cols))).
Proof. exact mul_t_ok. Qed.
Print Assumptions C64_mul_t.
(** CumSum: element i of the result is a sum of the elements 0 to i. *)
Theorem C64_cumsum : forall d a o (l : list (val d)) lo m,
  holds (esize_of d) m (ptr a) (len a) l -> holds (esize_of d) m (ptr o) (len o) lo -> length lo = length l ->
  apart (esize_of d) (ptr a) (len a) (ptr o) (len o) -> MatCumSum d o a m (cumsum_post d l o m).
Proof. exact cumsum_ok'. Qed.
Print Assumptions C64_cumsum.
(** A finite entry is within the usual bound of the exact sum over the whole row and column ... *)
Theorem C64_error : forall d bc v (l : list (val d * val d)), dot_of (floats d) v (used bc l) -> finite v ->
  Forall (fun p => finite (fst p) /\ finite (snd p)) (used bc l) /\
  (Rabs (real v - product l) <= gamma d (length l) * product_abs l + INR (length l) * (1 + gamma d (length l)) * half_tiny d)%R.
Proof. exact used_error. Qed.
Print Assumptions C64_error.
(** ... and finite it is unless the sum of the absolute values comes close to the largest finite value. *)
Theorem C64_finite : forall d bc v (l : list (val d * val d)), dot_of (floats d) v (used bc l) -> Forall (fun p => finite (fst p) /\ finite (snd p)) l ->
  ((1 + gamma d (length l)) * product_abs l + INR (length l) * (1 + gamma d (length l)) * half_tiny d <= largest d)%R -> finite v.
Proof. exact used_finite. Qed.
Print Assumptions C64_finite.

(** Examples: a product of a 2 x 3 and a 3 x 2 matrix with a zero in it, of a 2 x 3 matrix and a vector, of the transpose of a
    2 x 3 matrix and a vector, and a cumulative sum *)
Definition three {d} (la lb lo : list (val d)) : Z -> option (val d) :=
  PropsAsm.cells (esize_of d) 1024 lo (PropsAsm.cells (esize_of d) 512 lb (PropsAsm.cells (esize_of d) 8 la (fun _ => None))).
Lemma three_holds d (la lb lo : list (val d)) : (length la < 50)%nat -> (length lb < 50)%nat -> holds (esize_of d) (three la lb lo) 8 (length la) la /\
  holds (esize_of d) (three la lb lo) 512 (length lb) lb /\ holds (esize_of d) (three la lb lo) 1024 (length lo) lo.
Proof.
  intros H K. assert (E : (0 < esize_of d <= 8)%Z) by (destruct d; cbn; lia).
  split; [|split]; (split; [reflexivity|]); unfold three.
  - apply (PropsAsm.cells_apart (floats d)); [lia| |left; cbn [lane floats]; nia]. apply (PropsAsm.cells_apart (floats d)); [lia|apply (PropsAsm.cells_slice (floats d)); lia|left; cbn [lane floats]; nia].
  - apply (PropsAsm.cells_apart (floats d)); [lia|apply (PropsAsm.cells_slice (floats d)); lia|left; cbn [lane floats]; nia].
  - apply (PropsAsm.cells_slice (floats d)). lia.
Qed.
Lemma ex_apart d a n b k : (a + esize_of d * Z.of_nat n <= b)%Z -> apart (esize_of d) a n b k.
Proof. intros H p (i & Hi & E1) (j & Hj & E2). assert (0 < esize_of d)%Z by (destruct d; reflexivity). nia. Qed.
Lemma same_numbers d (l k : list (val d)) : map B2SF l = map B2SF k -> l = k.
Proof. revert k. induction l as [|x l IH]; intros [|y k] E; try discriminate; [reflexivity|]. injection E as E1 E2. f_equal; [now apply B2SF_inj|now apply IH]. Qed.
Notation num := PropsAsm.numbers.
Example C64_case_mul d c : let la := num d [1; 2; 3; 4; 0; 6]%Z in let lb := num d [1; 2; 3; 4; 5; 6]%Z in
  MatMul d c 2 3 2 (mkSlice 8 6) (mkSlice 512 6) (mkSlice 1024 4) (three la lb (repeat fzero 4)) (fun m' => holds (esize_of d) m' 1024 4 (num d [22; 28; 34; 44]%Z)).
Proof.
  intros la lb. destruct (three_holds d la lb (repeat fzero 4)) as (H1 & H2 & H3); [cbn; lia|cbn; lia|].
  replace (num d [22; 28; 34; 44]%Z) with (ArithModel.mul_rows fzero fadd fmul go_zero 3 2 la lb 0 2 (repeat fzero (2 * 2))) by (apply same_numbers; destruct d; vm_compute; reflexivity).
  apply (C64_same_as_plain d c 2 3 2 (mkSlice 8 6) (mkSlice 512 6) (mkSlice 1024 4) la lb); auto; cbn [ptr len].
  - apply ex_apart. destruct d; cbn; lia.
  - apply ex_apart. destruct d; cbn; lia.
  - destruct d; reflexivity.
Qed.
Example C64_case_vec d c : let la := num d [1; 2; 3; 4; 5; 6]%Z in let lb := num d [1; 10; 100]%Z in
  MatMul d c 2 3 1 (mkSlice 8 6) (mkSlice 512 3) (mkSlice 1024 2) (three la lb (repeat fzero 2)) (mul_post d 2 3 1 la lb (mkSlice 1024 2) (three la lb (repeat fzero 2))).
Proof.
  intros la lb. destruct (three_holds d la lb (repeat fzero 2)) as (H1 & H2 & H3); [cbn; lia|cbn; lia|].
  apply C64_mul; auto; cbn [ptr len].
  - apply ex_apart. destruct d; cbn; lia.
  - apply ex_apart. destruct d; cbn; lia.
  - destruct d; reflexivity.
  - destruct d; reflexivity.
Qed.
Example C64_case_mul_t d : let la := num d [1; 2; 3; 4; 5; 6]%Z in let lt := num d [1; 10]%Z in
  MatMulT d 3 (mkSlice 8 6) (mkSlice 512 2) (mkSlice 1024 3) (three la lt (repeat fzero 3)) (fun m' =>
    mul_t_post d 3 la lt (mkSlice 1024 3) (three la lt (repeat fzero 3)) m' /\ holds (esize_of d) m' 1024 3 (num d [41; 52; 63]%Z)).
Proof.
  intros la lt. destruct (three_holds d la lt (repeat fzero 3)) as (H1 & H2 & H3); [cbn; lia|cbn; lia|].
  replace (num d [41; 52; 63]%Z) with (ArithModel.mul_t_loop fzero fadd fmul 3 0 la lt (repeat fzero 3)) by (apply same_numbers; destruct d; vm_compute; reflexivity).
  apply C64_mul_t; auto; cbn [ptr len].
  - apply ex_apart. destruct d; cbn; lia.
  - apply ex_apart. destruct d; cbn; lia.
  - destruct d; reflexivity.
Qed.
Example C64_case_cumsum d : let l := num d [1; 2; 3; 4; 5; 6]%Z in
  MatCumSum d (mkSlice 1024 6) (mkSlice 8 6) (three l [] (repeat fzero 6)) (cumsum_post d l (mkSlice 1024 6) (three l [] (repeat fzero 6))).
Proof.
  intros l. destruct (three_holds d l [] (repeat fzero 6)) as (H1 & H2 & H3); [cbn; lia|cbn; lia|].
  apply (C64_cumsum d (mkSlice 8 6) (mkSlice 1024 6) l (repeat fzero 6)); auto. cbn [ptr len]. apply ex_apart. destruct d; cbn; lia.
Qed.

(** ** C65: NaNs in products *)
(** With one column, an entry with a NaN among its products (a NaN factor, or zero times infinity) is NaN. *)
Theorem C65_one_column_partial : forall d c rows cols a b o la lb m,
  length la = rows * cols -> length lb = cols ->
  holds (esize_of d) m (ptr a) (len a) la -> holds (esize_of d) m (ptr b) (len b) lb -> holds (esize_of d) m (ptr o) (len o) (repeat fzero rows) ->
  apart (esize_of d) (ptr a) (len a) (ptr o) (len o) -> apart (esize_of d) (ptr b) (len b) (ptr o) (len o) -> (ptr b mod esize_of d = 0)%Z -> (ptr o mod esize_of d = 0)%Z ->
  MatMul d c rows cols 1 a b o m (fun m' => forall i, i < rows ->
    Exists (fun p => fmul (fst p) (snd p) = B754_nan) (terms cols 1 la lb i 0) -> m' (ptr o + esize_of d * Z.of_nat i)%Z = Some B754_nan).
Proof.
  intros d c rows cols a b o la lb m La Lb Ha Hb Ho Da Db Al1 Al2.
  eapply MatMul_mono; [apply (C64_mul d c rows cols 1 a b o la lb m); rewrite ?Nat.mul_1_r; auto|].
  intros m' (V & _) i Hi H. destruct (V i 0 Hi ltac:(lia)) as (v & E & D). replace (i * 1 + 0) with i in E by lia. rewrite E. f_equal. exact (dot_nan d v _ D H).
Qed.
Print Assumptions C65_one_column_partial.
(** With several columns, if the left factor of such a product is not zero. *)
Theorem C65_several_columns_partial : forall d c rows cols bc a b o la lb m,
  length la = rows * cols -> length lb = cols * bc ->
  holds (esize_of d) m (ptr a) (len a) la -> holds (esize_of d) m (ptr b) (len b) lb -> holds (esize_of d) m (ptr o) (len o) (repeat fzero (rows * bc)) ->
  apart (esize_of d) (ptr a) (len a) (ptr o) (len o) -> apart (esize_of d) (ptr b) (len b) (ptr o) (len o) -> (ptr b mod esize_of d = 0)%Z -> (ptr o mod esize_of d = 0)%Z ->
  MatMul d c rows cols bc a b o m (fun m' => forall i j, i < rows -> j < bc ->
    Exists (fun p => fmul (fst p) (snd p) = B754_nan /\ eq_val (fst p) fzero = false) (terms cols bc la lb i j) -> m' (ptr o + esize_of d * Z.of_nat (i * bc + j))%Z = Some B754_nan).
Proof.
  intros d c rows cols bc a b o la lb m La Lb Ha Hb Ho Da Db Al1 Al2.
  eapply MatMul_mono; [apply (C64_mul d c rows cols bc a b o la lb m); auto|].
  intros m' (V & _) i j Hi Hj H. destruct (V i j Hi Hj) as (v & E & D). rewrite E. f_equal. apply (dot_nan d v _ D).
  apply Exists_exists in H. destruct H as (p & Hp & E1 & E2). apply Exists_exists. destruct p as [x y]. cbn [fst snd] in E1, E2. exists (x, y). split; [|exact E1]. unfold used. destruct (Nat.eqb bc 1); [exact Hp|]. unfold nonzero. apply filter_In. split; [exact Hp|].
  cbn [fst]. destruct x as [s| | |]; try reflexivity. destruct s; discriminate E2.
Qed.
Print Assumptions C65_several_columns_partial.
(** MulT always *)
Theorem C65_mul_t : forall d (v : val d) cols la lt p, dot_of (floats d) v (terms_t cols la lt p) ->
  Exists (fun q => fmul (fst q) (snd q) = B754_nan) (terms_t cols la lt p) -> v = B754_nan.
Proof. intros d v cols la lt p. exact (dot_nan d v _). Qed.
Print Assumptions C65_mul_t.
(** But Mul with several columns skips the zeros of the left matrix, whatever they are multiplied with: the product of the matrix
    (0) and the row (NaN, 1) is (0, 0), in both types and on every processor; the product of (0) and (NaN) alone is NaN. *)
Definition ex_nan (d : dtype) (bc : nat) : Z -> option (val d) :=
  PropsAsm.cells (esize_of d) 64 (repeat fzero bc) (PropsAsm.cells (esize_of d) 32 (firstn bc [B754_nan; fone]) (PropsAsm.cells (esize_of d) 0 [fzero] (fun _ => None))).
Lemma ex_nan_holds d bc : bc <= 2 -> holds (esize_of d) (ex_nan d bc) 0 1 [fzero] /\ holds (esize_of d) (ex_nan d bc) 32 bc (firstn bc [B754_nan; fone]) /\ holds (esize_of d) (ex_nan d bc) 64 bc (repeat fzero bc).
Proof.
  intros H. assert (E : (0 < esize_of d)%Z) by (destruct d; reflexivity). assert (L : length (firstn bc [B754_nan; @fone d]) = bc) by (rewrite firstn_length; cbn; lia).
  assert (B : (esize_of d * Z.of_nat bc <= 16)%Z) by (destruct d; cbn [esize_of]; lia).
  split; [|split]; (split; [first [reflexivity|symmetry; exact L|now rewrite repeat_length]|]); unfold ex_nan.
  - apply (PropsAsm.cells_apart (floats d)); [exact E| |left; destruct d; cbn; lia]. apply (PropsAsm.cells_apart (floats d)); [exact E|now apply (PropsAsm.cells_slice (floats d))|left; destruct d; cbn; lia].
  - apply (PropsAsm.cells_apart (floats d)); [exact E|now apply (PropsAsm.cells_slice (floats d))|]. left. apply Z.le_trans with (32 + esize_of d * Z.of_nat bc)%Z; [|lia]. apply Zplus_le_compat_l, Z.mul_le_mono_nonneg_l; [lia|]. apply inj_le, Nat.eq_le_incl. exact L.
  - now apply (PropsAsm.cells_slice (floats d)).
Qed.
Theorem C65_refuted : forall d c, exists la lb m,
  holds (esize_of d) m 0 1 la /\ holds (esize_of d) m 32 2 lb /\ holds (esize_of d) m 64 2 (repeat fzero 2) /\
  Exists (fun p => fmul (fst p) (snd p) = B754_nan) (terms 1 2 la lb 0 0) /\
  MatMul d c 1 1 2 (mkSlice 0 1) (mkSlice 32 2) (mkSlice 64 2) m (fun m' => m' 64%Z = Some fzero).
Proof.
  intros d c. destruct (ex_nan_holds d 2 (le_n _)) as (H1 & H2 & H3). exists [fzero], [B754_nan; fone], (ex_nan d 2).
  split; [exact H1|]. split; [exact H2|]. split; [exact H3|]. split; [constructor; reflexivity|].
  eapply MatMul_mono; [apply (C64_same_as_plain d c 1 1 2 (mkSlice 0 1) (mkSlice 32 2) (mkSlice 64 2) [fzero] [B754_nan; fone] (ex_nan d 2)); cbn [ptr len]; auto|].
  - apply ex_apart. destruct d; cbn; lia.
  - apply ex_apart. destruct d; cbn; lia.
  - destruct d; reflexivity.
  - intros m' (_ & V). cbn [ptr] in V. replace 64%Z with (64 + esize_of d * Z.of_nat 0)%Z by lia. apply V. reflexivity.
Qed.
Print Assumptions C65_refuted.
Example C65_case d c : MatMul d c 1 1 1 (mkSlice 0 1) (mkSlice 32 1) (mkSlice 64 1) (ex_nan d 1) (fun m' => m' 64%Z = Some B754_nan).
Proof.
  destruct (ex_nan_holds d 1 ltac:(lia)) as (H1 & H2 & H3).
  eapply MatMul_mono; [apply (C65_one_column_partial d c 1 1 (mkSlice 0 1) (mkSlice 32 1) (mkSlice 64 1) [fzero] [B754_nan] (ex_nan d 1)); cbn [ptr len]; auto|].
  - apply ex_apart. destruct d; cbn; lia.
  - apply ex_apart. destruct d; cbn; lia.
  - destruct d; reflexivity.
  - destruct d; reflexivity.
  - intros m' V. cbn [ptr] in V. specialize (V 0 ltac:(lia)). replace 64%Z with (64 + esize_of d * Z.of_nat 0)%Z by lia. apply V. constructor. reflexivity.
Qed.
(** and C65_several_columns_partial is met by a left factor of one *)
Example C65_case2 : Exists (fun p => fmul (fst p) (snd p) = B754_nan /\ eq_val (fst p) fzero = false) (terms 2 2 [fzero; @fone F32] [fone; fone; B754_nan; fone] 0 0).
Proof. right. left. split; [destruct (fone_finite F32) as (m & e & B & E); cbn [fst snd nth Nat.mul Nat.add]; rewrite E; reflexivity|vm_compute; reflexivity]. Qed.
