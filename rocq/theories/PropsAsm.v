(** * C61, C62: the vector kernels *)
From Coq Require Import ZArith String Bool Lia List Permutation Reals Lra.
From Flocq Require Import Core BinarySingleNaN.
From Verif Require Import FloatModel NumModel NumSpec AsmModel AsmCode AsmCalls AsmSpec AsmFloatSpec AsmFloat AsmFloat2 AsmProofs6.
From Verif Require AsmProofs7 NumLemmas.
Import ListNotations.
Local Open Scope nat_scope.
Local Open Scope string_scope.

(** ** Concrete memories for the examples: slices of float32 or float64 at given addresses *)
Definition cells {T} (esize a : Z) (l : list T) (m : Z -> option T) : Z -> option T := fun p =>
  if ((0 <=? p - a) && (p - a <? esize * Z.of_nat (length l)) && ((p - a) mod esize =? 0))%Z then nth_error l (Z.to_nat ((p - a) / esize)) else m p.
Definition start (d : dtype) (m : Z -> option (val d)) : state (floats d) := mkState (floats d) (fun _ => 0%Z) (fun _ => repeat fzero 8) m false false None.
Definition args (d : dtype) (l : list (string * Z)) (c : val d) : frame (floats d) :=
  mkFrame (floats d) (fun s => match find (fun p => String.eqb (fst p) s) l with Some p => snd p | None => 0%Z end) (fun _ => c).
Definition numbers (d : dtype) (l : list Z) : list (val d) := map (fun n => lit n 0) l.
Definition old_cpu := mkCpu true false false false.
Definition new_cpu := mkCpu true true true true.
Lemma cells_slice (A : lanes) esize a l m : (0 < esize)%Z -> slice A esize (cells esize a l m) a l.
Proof.
  intros E i x H. unfold cells. replace (a + esize * Z.of_nat i - a)%Z with (Z.of_nat i * esize)%Z by ring.
  assert (i < length l) by (apply nth_error_Some; congruence).
  rewrite (proj2 (Z.leb_le _ _)) by nia. rewrite (proj2 (Z.ltb_lt _ _)) by nia. rewrite Z.mod_mul by lia. cbn [andb Z.eqb].
  rewrite Z.div_mul, Nat2Z.id by lia. exact H.
Qed.
Lemma cells_apart (A : lanes) esize a l m b k : (0 < esize)%Z -> slice A esize m b k -> (b + esize * Z.of_nat (length k) <= a \/ a + esize * Z.of_nat (length l) <= b)%Z -> slice A esize (cells esize a l m) b k.
Proof.
  intros E H D i x Hi. assert (i < length k) by (apply nth_error_Some; congruence). unfold cells.
  replace (_ && _ && _)%bool with false; [now apply H|]. symmetry. apply andb_false_iff. left. apply andb_false_iff.
  destruct D; [left; apply Z.leb_gt|right; apply Z.ltb_ge]; nia.
Qed.

(** ** C61: element-wise operations *)
(** Whatever the processor, the kernel that is chosen writes f x1[i] x2[i] to y[i] for each i and touches no other cell, for
    slices of any length at any addresses that are multiples of the element size, also when y is x1 or x2; it never faults. *)
Theorem C61_add : forall (A : lanes) (c : cpu), computes2 A 4 4 (Add32 c) (bin A Add) /\ computes2 A 8 2 (Add64 c) (bin A Add).
Proof. split; [apply add32_ok | apply add64_ok]. Qed.
Print Assumptions C61_add.
Theorem C61_sub : forall (A : lanes) (c : cpu), computes2 A 4 4 (Sub32 c) (bin A Sub) /\ computes2 A 8 2 (Sub64 c) (bin A Sub).
Proof. split; [apply sub32_ok | apply sub64_ok]. Qed.
Print Assumptions C61_sub.
Theorem C61_div : forall (A : lanes) (c : cpu), computes2 A 4 4 (Div32 c) (bin A Div) /\ computes2 A 8 2 (Div64 c) (bin A Div).
Proof. split; [apply div32_ok | apply div64_ok]. Qed.
Print Assumptions C61_div.
(** the same for a constant: y[i] is x[i] + c or x[i] * c; the AVX kernels swap the operands, so the operation must commute *)
Theorem C61_add_const : forall (A : lanes) (c : cpu), (forall a b, bin A Add a b = bin A Add b a) ->
  computes1 A 4 4 (AddConst32 c) (bin A Add) /\ computes1 A 8 2 (AddConst64 c) (bin A Add).
Proof. split; [now apply add_const32_ok | now apply add_const64_ok]. Qed.
Print Assumptions C61_add_const.
Theorem C61_mul_const : forall (A : lanes) (c : cpu), (forall a b, bin A Mul a b = bin A Mul b a) ->
  computes1 A 4 4 (MulConst32 c) (bin A Mul) /\ computes1 A 8 2 (MulConst64 c) (bin A Mul).
Proof. split; [now apply mul_const32_ok | now apply mul_const64_ok]. Qed.
Print Assumptions C61_mul_const.
(** A call has one result: what these theorems say of some final state holds of every one. *)
Theorem C61_deterministic : forall (A : lanes) esize half F c st st1 st2, returns A esize half F c st st1 -> returns A esize half F c st st2 -> st1 = st2.
Proof. exact AsmProofs7.returns_unique. Qed.
Print Assumptions C61_deterministic.
(** In IEEE 754 arithmetic, on every processor, the results are exactly those of the plain Go loops. *)
Theorem C61_same_as_plain : forall c : cpu,
  agrees2 (floats F32) 4 4 (Add32 c) fadd /\ agrees2 (floats F64) 8 2 (Add64 c) fadd /\
  agrees2 (floats F32) 4 4 (Sub32 c) fsub /\ agrees2 (floats F64) 8 2 (Sub64 c) fsub /\
  agrees2 (floats F32) 4 4 (Div32 c) fdiv /\ agrees2 (floats F64) 8 2 (Div64 c) fdiv /\
  agrees1 (floats F32) 4 4 (AddConst32 c) fadd /\ agrees1 (floats F64) 8 2 (AddConst64 c) fadd /\
  agrees1 (floats F32) 4 4 (MulConst32 c) fmul /\ agrees1 (floats F64) 8 2 (MulConst64 c) fmul.
Proof.
  intros c. repeat split; first [apply computes_agrees2 | apply computes_agrees1].
  - exact (add32_ok (floats F32) c).
  - exact (add64_ok (floats F64) c).
  - exact (sub32_ok (floats F32) c).
  - exact (sub64_ok (floats F64) c).
  - exact (div32_ok (floats F32) c).
  - exact (div64_ok (floats F64) c).
  - exact (add_const32_ok (floats F32) c (fadd_comm F32)).
  - exact (add_const64_ok (floats F64) c (fadd_comm F64)).
  - exact (mul_const32_ok (floats F32) c (fmul_comm F32)).
  - exact (mul_const64_ok (floats F64) c (fmul_comm F64)).
Qed.
Print Assumptions C61_same_as_plain.
(** The chosen kernel consists of instructions that the processor has. *)
Theorem C61_runs_on : forall c, real_cpu c -> Forall (fun f => runs_on c (f c) = true)
  [Add32; Add64; Sub32; Sub64; Div32; Div64; AddConst32; AddConst64; MulConst32; MulConst64; ExpKernel32; LogKernel32].
Proof.
  intros [s a b f] (H & K). cbn [avx avx2 sse3] in *. repeat constructor; destruct a, b; try (specialize (H eq_refl); discriminate); destruct f, s; vm_compute; reflexivity.
Qed.
Print Assumptions C61_runs_on.

(** 11 elements in place at an odd address, on both kinds of processors: x1 and y are the same slice *)
Definition ex_a := numbers F32 [1; 2; 3; 4; 5; 6; 7; 8; 9; 10; 11]%Z.
Definition ex_b := numbers F32 [10; 20; 30; 40; 50; 60; 70; 80; 90; 100; 110]%Z.
Definition ex_mem := cells 4 1004 ex_b (cells 4 4 ex_a (fun _ => None)).
Definition ex_args := args F32 [("x1_base", 4); ("x1_len", 11); ("x2_base", 1004); ("y_base", 4)]%Z fzero.
Example C61_case c : exists st', returns (floats F32) 4 4 ex_args (Add32 c) (start F32 ex_mem) st' /\
  slice (floats F32) 4 (mem _ st') 4 (numbers F32 [11; 22; 33; 44; 55; 66; 77; 88; 99; 110; 121]%Z).
Proof.
  assert (S4 : (0 < 4)%Z) by lia.
  assert (H1 : slice (floats F32) 4 ex_mem 4 ex_a).
  { apply (cells_apart (floats F32)); [lia|now apply (cells_slice (floats F32))|]. left. vm_compute. discriminate. }
  assert (H2 : slice (floats F32) 4 ex_mem 1004 ex_b) by (now apply (cells_slice (floats F32))).
  destruct (proj1 (C61_same_as_plain c) ex_args (start F32 ex_mem) 4%Z 1004%Z 4%Z ex_a ex_b ex_a) as (st' & out & R & P & S & _); auto.
  - intros i j Hi Hj. lia.
  - intros i j Hi Hj. change (length ex_a) with 11 in *. lia.
  - exists st'. split; [exact R|]. change (@plain2 (val F32) fadd ex_a ex_b ex_a = Some out) in P. assert (E : map B2SF (numbers F32 [11; 22; 33; 44; 55; 66; 77; 88; 99; 110; 121]%Z) = map B2SF out).
    { assert (Some (map B2SF (numbers F32 [11; 22; 33; 44; 55; 66; 77; 88; 99; 110; 121]%Z)) = option_map (map B2SF) (plain2 fadd ex_a ex_b ex_a)) by (vm_compute; reflexivity).
      rewrite P in H. now injection H. }
    replace (numbers F32 _) with out; [exact S|]. revert E. generalize (numbers F32 [11; 22; 33; 44; 55; 66; 77; 88; 99; 110; 121]%Z) as l. clear. induction out as [|x out IH]; intros [|y l] E; try discriminate; [reflexivity|].
    injection E as E1 E2. f_equal; [now apply B2SF_inj | now apply IH].
Qed.

(** ** C62: sums and dot products *)
(** Whatever the processor, Sum adds every element exactly once, and DotProd every product, in some order and grouping. *)
Theorem C62_sum : forall (A : lanes) (c : cpu), computes_sum A 4 4 (Sum32 c) /\ computes_sum A 8 2 (Sum64 c).
Proof. split; [apply sum32_ok | apply sum64_ok]. Qed.
Print Assumptions C62_sum.
Theorem C62_dot : forall (A : lanes) (c : cpu), computes_dot A 4 4 (DotProd32 c) /\ computes_dot A 8 2 (DotProd64 c).
Proof. split; [apply dot32_ok | apply dot64_ok]. Qed.
Print Assumptions C62_dot.
Theorem C62_plain : forall (A : lanes) (x1 x2 : list (lane A)), sum_of A (plain_sum (zero A) (bin A Add) x1) x1 /\
  (length x2 = length x1 -> exists v, plain_dot (zero A) (bin A Add) (bin A Mul) x1 x2 = Some v /\ dot_of A v (combine x1 x2)).
Proof.
  intros A x1 x2. split; [apply plain_sum_of|]. intros L. destruct (plain_dot_some A x1 x2 L) as (v & E). exists v. split; [exact E|]. now apply plain_dot_of.
Qed.
Print Assumptions C62_plain.
(** With an exact addition they are the sum and the dot product. *)
Theorem C62_exact : forall A : lanes,
  (forall a b c, bin A Add a (bin A Add b c) = bin A Add (bin A Add a b) c) -> (forall a b, bin A Add a b = bin A Add b a) ->
  (forall a, bin A Add (zero A) a = a) -> (forall a b c, fma A a b c = bin A Add (bin A Mul a b) c) ->
  (forall v l, sum_of A v l -> v = fold_right (bin A Add) (zero A) l) /\
  (forall v l, dot_of A v l -> v = fold_right (bin A Add) (zero A) (map (fun p => bin A Mul (fst p) (snd p)) l)).
Proof. intros A H1 H2 H3 H4. split; intros v l H; [now apply sum_exact | now apply dot_exact]. Qed.
Print Assumptions C62_exact.
(** In floating point a finite sum of n elements is within gamma (n - 1) of the exact sum, relative to the sum of the absolute values. *)
Theorem C62_sum_error : forall d (v : val d) (l : list (val d)), sum_of (floats d) v l -> finite v ->
  Forall finite l /\ (Rabs (real v - total l) <= gamma d (length l - 1) * total_abs l)%R.
Proof. exact sum_error. Qed.
Print Assumptions C62_sum_error.
Theorem C62_dot_error : forall d (v : val d) (l : list (val d * val d)), dot_of (floats d) v l -> finite v ->
  Forall (fun p => finite (fst p) /\ finite (snd p)) l /\
  (Rabs (real v - product l) <= gamma d (length l) * product_abs l + INR (length l) * (1 + gamma d (length l)) * half_tiny d)%R.
Proof. exact dot_error. Qed.
Print Assumptions C62_dot_error.
(** It is finite unless the sum of the absolute values comes close to the largest finite value. *)
Theorem C62_sum_finite : forall d (v : val d) (l : list (val d)), sum_of (floats d) v l -> Forall finite l ->
  ((1 + gamma d (length l)) * total_abs l <= largest d)%R -> finite v.
Proof. exact sum_finite. Qed.
Print Assumptions C62_sum_finite.
Theorem C62_dot_finite : forall d (v : val d) (l : list (val d * val d)), dot_of (floats d) v l -> Forall (fun p => finite (fst p) /\ finite (snd p)) l ->
  ((1 + gamma d (length l)) * product_abs l + INR (length l) * (1 + gamma d (length l)) * half_tiny d <= largest d)%R -> finite v.
Proof. exact dot_finite. Qed.
Print Assumptions C62_dot_finite.
Example C62_finite_case : ((1 + gamma F32 2) * total_abs [@lit F32 1 0; lit (-3) 0] <= largest F32)%R.
Proof.
  unfold gamma, u, largest, total_abs. cbn [fold_right]. destruct (NumLemmas.lit_eq F32 1 0 1) as (_ & ->); [cbn; lra|reflexivity|cbn; lia|cbn; lia|].
  destruct (NumLemmas.lit_eq F32 (-3) 0 (-3)) as (_ & ->); [cbn; lra|reflexivity|cbn; lia|cbn; lia|]. rewrite Rabs_R1, Rabs_left by lra.
  assert (H : (/ 2 ^ 24 <= 1)%R) by (rewrite <- Rinv_1; apply Rinv_le_contravar; [lra|apply pow_R1_Rle; lra]).
  assert (H0 : (0 < / 2 ^ 24)%R) by (apply Rinv_0_lt_compat, pow_lt; lra). set (z := (/ 2 ^ 24)%R) in *. assert (K : (16 <= 2 ^ 104)%R) by (change 104%nat with (4 + 100)%nat; rewrite pow_add; pose proof (pow_R1_Rle 2 100 ltac:(lra)); cbn; lra).
  assert (K2 : (2 <= 2 ^ 24)%R) by (change 24%nat with (1 + 23)%nat; rewrite pow_add; pose proof (pow_R1_Rle 2 23 ltac:(lra)); cbn; lra).
  set (p := (2 ^ 104)%R) in *. set (q := (2 ^ 24)%R) in *. cbn [pow length] . nra.
Qed.
(** So two processors, or a processor and the plain loop, differ by at most twice that. *)
Theorem C62_close : forall d (v w : val d) (l : list (val d)), sum_of (floats d) v l -> sum_of (floats d) w l -> finite v -> finite w ->
  (Rabs (real v - real w) <= 2 * gamma d (length l - 1) * total_abs l)%R.
Proof.
  intros d v w l Sv Sw Fv Fw. destruct (C62_sum_error d v l Sv Fv) as (_ & Ev). destruct (C62_sum_error d w l Sw Fw) as (_ & Ew).
  replace (real v - real w)%R with ((real v - total l) + - (real w - total l))%R by ring. eapply Rle_trans; [apply Rabs_triang|]. rewrite Rabs_Ropp. lra.
Qed.
Print Assumptions C62_close.
(** With SSE3 (and AVX only where there is SSE3), the chosen kernels consist of instructions that the processor has ... *)
Theorem C62_runs_on : forall c, real_cpu c -> sse3 c = true -> Forall (fun f => runs_on c (f c) = true) [Sum32; Sum64; DotProd32; DotProd64].
Proof.
  intros [s a b f] (H & K) S. cbn [avx avx2 sse3] in *. subst s. repeat constructor; destruct a, b; try (specialize (H eq_refl); discriminate); destruct f; vm_compute; reflexivity.
Qed.
Print Assumptions C62_runs_on.
(** ... but the code does not ask for SSE3, and uses HADDPS without it (the first amd64 processors do not have it). *)
Theorem C62_without_sse3_refuted : exists c, real_cpu c /\ runs_on c (Sum32 c) = false /\ runs_on c (DotProd64 c) = false.
Proof. exists (mkCpu false false false false). repeat split; discriminate. Qed.
Print Assumptions C62_without_sse3_refuted.

(** The value of a sum depends on the processor, and without AVX on the address of the slice. *)
Definition ex_sum : list (val F32) := lit 1 0 :: repeat (lit 1 (-24)) 19.
Definition sum_at (c : cpu) (a : Z) : option (val F32) :=
  match run (floats F32) 4 4 (args F32 [("x_base", a); ("x_len", 20%Z)] fzero) 100 (Sum32 c) (Sum32 c) (start F32 (cells 4 a ex_sum (fun _ => None))) with
  | Some (Some st) => ret _ st
  | _ => None
  end.
Definition spec_of {d} (o : option (val d)) := option_map B2SF o.
Lemma spec_some {d} (o : option (val d)) z : spec_of o = Some z -> exists v, o = Some v /\ B2SF v = z.
Proof. destruct o as [v|]; [|discriminate]. intros [= <-]. now exists v. Qed.
Lemma sum_at_returns c a v : sum_at c a = Some v -> exists st', returns (floats F32) 4 4 (args F32 [("x_base", a); ("x_len", 20%Z)] fzero) (Sum32 c) (start F32 (cells 4 a ex_sum (fun _ => None))) st' /\ ret _ st' = Some v.
Proof.
  unfold sum_at. intros H. destruct (run _ _ _ _ _ _ _ _) as [[st|]|] eqn:E; try discriminate. exists st. split; [now exists 100|exact H].
Qed.
Theorem C62_reproducible_refuted : exists (l : list (val F32)) (v w x : val F32), 
  (forall c a, (a mod 4 = 0)%Z -> exists st' r, returns (floats F32) 4 4 (args F32 [("x_base", a); ("x_len", Z.of_nat (length l))] fzero) (Sum32 c) (start F32 (cells 4 a l (fun _ => None))) st' /\ ret _ st' = Some r /\
     (c = new_cpu -> a = 20%Z -> r = v) /\ (c = old_cpu -> a = 20%Z -> r = w) /\ (c = old_cpu -> a = 16%Z -> r = x)) /\
  v <> w /\ w <> x.
Proof.
  assert (S1 : spec_of (sum_at new_cpu 20) = Some (SpecFloat.S754_finite false 8388617 (-23))) by (vm_compute; reflexivity).
  assert (S2 : spec_of (sum_at old_cpu 20) = Some (SpecFloat.S754_finite false 8388615 (-23))) by (vm_compute; reflexivity).
  assert (S3 : spec_of (sum_at old_cpu 16) = Some (SpecFloat.S754_finite false 8388617 (-23))) by (vm_compute; reflexivity).
  apply spec_some in S1, S2, S3. destruct S1 as (v & E1 & S1), S2 as (w & E2 & S2), S3 as (x & E3 & S3).
  exists ex_sum, v, w, x. split; [|split].
  - intros c a M. change (Z.of_nat (length ex_sum)) with 20%Z.
    destruct (proj1 (C62_sum (floats F32) c) (args F32 [("x_base", a); ("x_len", 20%Z)] fzero) (start F32 (cells 4 a ex_sum (fun _ => None))) a ex_sum) as (st' & r & R & Er & _ & _); auto.
    { apply (cells_slice (floats F32)). lia. }
    exists st', r. split; [exact R|]. split; [exact Er|].
    assert (U : forall u, sum_at c a = Some u -> r = u).
    { intros u Hu. apply sum_at_returns in Hu. destruct Hu as (st2 & (f2 & R2) & Eu). destruct R as (f1 & R1).
      assert (D : forall (F : frame (floats F32)) whole f g cc s s1 s2, run (floats F32) 4 4 F f whole cc s = Some (Some s1) -> run (floats F32) 4 4 F g whole cc s = Some (Some s2) -> s1 = s2).
      { clear. induction f as [|f IH]; intros g cc s s1 s2 H1 H2; [discriminate|]. destruct g as [|g]; [discriminate|]. cbn [run] in H1, H2.
        destruct cc as [|[l is] cc]; [discriminate|]. destruct (block _ _ _ _ is s) as [[s' [|lb|]]|]; try discriminate.
        - eapply IH; eassumption.
        - destruct (from_label whole lb); [|discriminate]. eapply IH; eassumption.
        - congruence. }
      rewrite (D _ _ _ _ _ _ _ _ R1 R2) in Er. congruence. }
    split; [|split]; intros -> ->; apply U; assumption.
  - intros ->. rewrite S1 in S2. discriminate S2.
  - intros ->. rewrite S2 in S3. discriminate S3.
Qed.
Print Assumptions C62_reproducible_refuted.

Example C62_case : spec_of (sum_at new_cpu 16) = Some (SpecFloat.S754_finite false 8388617 (-23)).
Proof. vm_compute. reflexivity. Qed.
