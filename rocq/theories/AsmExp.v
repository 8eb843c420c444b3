(** * What the kernels of Exp32 compute in a lane *)
From Coq Require Import ZArith String Bool Lia List Reals Lra.
From Flocq Require Binary Bits.
From Flocq Require Import Core BinarySingleNaN.
From Verif Require Import AsmModel AsmCode AsmCalls DenseModel FloatModel NumModel FloatSpec FloatProofs NumSpec NumLemmas AsmFloatSpec AsmFloat AsmWords.
Import ListNotations.
Local Open Scope Z_scope.

Lemma decode_encode x : decode (encode x) = x.
Proof. unfold decode, encode, Bits.b32_of_bits, Bits.bits_of_b32. rewrite Bits.binary_float_of_bits_of_binary_float. apply Binary.B2BSN_BSN2B. Qed.

(** the words of the constants *)
Definition hi_w := 1118879909. Definition lo_w := 3266363557. Definition log2e_w := 1069066811. Definition half_w := 1056964608. Definition one_w := 1065353216.
Definition c1_w := 3207692288. Definition c2_w := 962494595.
Definition p0_w := 961571175. Definition p1_w := 985088974. Definition p2_w := 1007192328. Definition p3_w := 1026206145. Definition p4_w := 1042983594.
Local Notation B := (bin words). Local Notation U := (un words).
Definition clamp_w (w : Z) : Z := B Max (B Min w hi_w) lo_w.
Definition scaled_w (c : Z) : Z := B Add (B Mul c log2e_w) half_w.
Definition poly_w (r n : Z) : Z :=
  let q := B Add (B Mul r p0_w) p1_w in let q := B Add (B Mul r q) p2_w in let q := B Add (B Mul r q) p3_w in let q := B Add (B Mul r q) p4_w in
  let q := B Add (B Mul r q) half_w in
  let e := B Add (B Add r (B Mul (B Mul r r) q)) one_w in
  B Mul e (B Addd (U (Shl 23) (U Trunc n)) one_w).
Definition reduce_w (c n : Z) : Z := B Add (B Add c (B Mul n c1_w)) (B Mul n c2_w).
Definition exp_avx_w (w : Z) : Z :=
  let c := clamp_w w in let t := scaled_w c in let k := U Floor t in
  let n := B Sub k (B And (B Cmplt t k) one_w) in poly_w (reduce_w c n) n.
Definition exp_sse_w (w : Z) : Z :=
  let c := clamp_w w in let t := scaled_w c in let k := U OfInt (U Trunc t) in
  let n := B Sub k (B And (B Cmplt t k) one_w) in poly_w (reduce_w c n) n.

Lemma mul_comm_w a b : B Mul a b = B Mul b a.
Proof. cbn [bin words]. unfold arith. now rewrite fmul_comm. Qed.
Lemma add_comm_w a b : B Add a b = B Add b a.
Proof. cbn [bin words]. unfold arith. now rewrite fadd_comm. Qed.
Ltac lanes := cbv [lane_function exp_avx32 exp_sse32 skipn lane_run set_reg operand_lane Nat.eqb].
Lemma exp_avx_lane w : lane_function exp_avx32 w = exp_avx_w w.
Proof. lanes. unfold exp_avx_w, poly_w, reduce_w, scaled_w, clamp_w, hi_w, lo_w, log2e_w, half_w, one_w, c1_w, c2_w, p0_w, p1_w, p2_w, p3_w, p4_w. cbv zeta. reflexivity. Qed.
(** the same operations, with some operands the other way round *)
Definition poly_s (r n : Z) : Z :=
  let q := B Add (B Mul p0_w r) p1_w in let q := B Add (B Mul q r) p2_w in let q := B Add (B Mul q r) p3_w in let q := B Add (B Mul q r) p4_w in
  let q := B Add (B Mul q r) half_w in
  let e := B Add (B Add r (B Mul q (B Mul r r))) one_w in
  B Mul e (B Addd (U (Shl 23) (U Trunc n)) one_w).
Lemma poly_s_eq r n : poly_s r n = poly_w r n.
Proof.
  unfold poly_s, poly_w. cbv zeta. rewrite (mul_comm_w p0_w r).
  do 4 (match goal with |- context[B Mul ?a r] => lazymatch a with r => fail | _ => rewrite (mul_comm_w a r) end end).
  match goal with |- context[B Mul ?a (B Mul r r)] => rewrite (mul_comm_w a (B Mul r r)) end. reflexivity.
Qed.
Lemma exp_sse_lane w : lane_function exp_sse32 w = exp_sse_w w.
Proof.
  transitivity (let c := clamp_w w in let t := B Add (B Mul log2e_w c) half_w in let k := U OfInt (U Trunc t) in
    let n := B Sub k (B And (B Cmplt t k) one_w) in poly_s (B Add (B Add c (B Mul c1_w n)) (B Mul c2_w n)) n).
  - lanes. unfold poly_s, clamp_w, hi_w, lo_w, log2e_w, half_w, one_w, c1_w, c2_w, p0_w, p1_w, p2_w, p3_w, p4_w. cbv zeta. reflexivity.
  - cbv zeta. unfold exp_sse_w, scaled_w. cbv zeta. rewrite (mul_comm_w log2e_w). rewrite poly_s_eq. unfold reduce_w. rewrite (mul_comm_w c1_w), (mul_comm_w c2_w). reflexivity.
Qed.

(** ** The constants *)
Lemma const w m e : B2SF (decode w) = B2SF (lit m e : val F32) -> decode w = lit m e. Proof. apply B2SF_inj. Qed.
Ltac const m e := apply (const _ m e); vm_compute; reflexivity.
Lemma hi_eq : decode hi_w = lit 11583653 (-17). Proof. const 11583653 (-17). Qed.
Lemma lo_eq : decode lo_w = lit (-11583653) (-17). Proof. const (-11583653) (-17). Qed.
Lemma log2e_eq : decode log2e_w = lit 12102203 (-23). Proof. const 12102203 (-23). Qed.
Lemma half_eq : decode half_w = lit 1 (-1). Proof. const 1 (-1). Qed.
Lemma one_w_eq : decode one_w = lit 1 0. Proof. const 1 0. Qed.
Lemma c1_eq : decode c1_w = lit (-355) (-9). Proof. const (-355) (-9). Qed.
Lemma c2_eq : decode c2_w = lit 14581891 (-36). Proof. const 14581891 (-36). Qed.
Lemma p0_eq : decode p0_w = lit 13658471 (-36). Proof. const 13658471 (-36). Qed.
Lemma p1_eq : decode p1_w = lit 6005223 (-32). Proof. const 6005223 (-32). Qed.
Lemma p2_eq : decode p2_w = lit 1118497 (-27). Proof. const 1118497 (-27). Qed.
Lemma p3_eq : decode p3_w = lit 11184577 (-28). Proof. const 11184577 (-28). Qed.
Lemma p4_eq : decode p4_w = lit 5592405 (-25). Proof. const 5592405 (-25). Qed.
Lemma zero_w_eq : decode 0 = fzero. Proof. apply B2SF_inj. vm_compute. reflexivity. Qed.

Local Open Scope R_scope.
Lemma neg_pow k : bpow radix2 (Z.neg k) = / IZR (Zpower_pos 2 k). Proof. reflexivity. Qed.
Lemma lit32 m e r : r = IZR m * bpow radix2 e -> (Z.abs m < 2 ^ 24)%Z -> (-149 <= e)%Z -> (e <= 104)%Z -> finite (lit m e : val F32) /\ real (lit m e : val F32) = r.
Proof. intros. apply lit_eq; auto; cbn; lia. Qed.
Ltac lit32 := apply lit32; [rewrite ?neg_pow; try change (bpow radix2 0) with 1; cbn [Zpower_pos Pos.iter Z.mul Pos.mul]; lra|reflexivity|lia|lia].
Lemma hi_real : finite (decode hi_w) /\ real (decode hi_w) = 11583653 / 131072. Proof. rewrite hi_eq. lit32. Qed.
Lemma lo_real : finite (decode lo_w) /\ real (decode lo_w) = - 11583653 / 131072. Proof. rewrite lo_eq. lit32. Qed.
Lemma log2e_real : finite (decode log2e_w) /\ real (decode log2e_w) = 12102203 / 8388608. Proof. rewrite log2e_eq. lit32. Qed.
Lemma half_real : finite (decode half_w) /\ real (decode half_w) = 1 / 2. Proof. rewrite half_eq. lit32. Qed.
Lemma one_real : finite (decode one_w) /\ real (decode one_w) = 1. Proof. rewrite one_w_eq. lit32. Qed.
Lemma c1_real : finite (decode c1_w) /\ real (decode c1_w) = - 355 / 512. Proof. rewrite c1_eq. lit32. Qed.
Lemma c2_real : finite (decode c2_w) /\ real (decode c2_w) = 14581891 / 68719476736. Proof. rewrite c2_eq. lit32. Qed.
Lemma p0_real : finite (decode p0_w) /\ real (decode p0_w) = 13658471 / 68719476736. Proof. rewrite p0_eq. lit32. Qed.
Lemma p1_real : finite (decode p1_w) /\ real (decode p1_w) = 6005223 / 4294967296. Proof. rewrite p1_eq. lit32. Qed.
Lemma p2_real : finite (decode p2_w) /\ real (decode p2_w) = 1118497 / 134217728. Proof. rewrite p2_eq. lit32. Qed.
Lemma p3_real : finite (decode p3_w) /\ real (decode p3_w) = 11184577 / 268435456. Proof. rewrite p3_eq. lit32. Qed.
Lemma p4_real : finite (decode p4_w) /\ real (decode p4_w) = 5592405 / 33554432. Proof. rewrite p4_eq. lit32. Qed.

(** ** One rounding *)
Definition eps : R := / 16777216.
Definition tiny : R := / 2 ^ 150.
Lemma add_step (x y : val F32) b : finite x -> finite y -> Rabs (real x + real y) <= b -> b <= 1000000 ->
  finite (fadd x y) /\ Rabs (real (fadd x y) - (real x + real y)) <= eps * b.
Proof.
  intros Fx Fy H L. assert (R1 : rep F32 1048576) by (apply (rep_int F32 1048576); reflexivity). assert (R2 := rep_opp _ _ R1).
  apply Rabs_le_inv in H as H'. destruct (add_in F32 x y (- 1048576) (1048576) Fx Fy R2 R1) as (F & _ & E); [lra|]. split; [exact F|].
  rewrite E. eapply Rle_trans; [apply plus_error_rel|]. replace (u F32) with eps by (unfold u, eps; simpl; lra). apply Rmult_le_compat_l; [unfold eps; lra|exact H].
Qed.
Lemma mul_step (x y : val F32) b : finite x -> finite y -> Rabs (real x * real y) <= b -> b <= 1000000 ->
  finite (fmul x y) /\ Rabs (real (fmul x y) - real x * real y) <= eps * b + tiny.
Proof.
  intros Fx Fy H L. assert (R1 : rep F32 1048576) by (apply (rep_int F32 1048576); reflexivity). assert (R2 := rep_opp _ _ R1).
  apply Rabs_le_inv in H as H'. destruct (mul_in F32 x y (- 1048576) (1048576) Fx Fy R2 R1) as (F & _ & E); [lra|]. split; [exact F|].
  rewrite E. eapply Rle_trans; [apply round_error|]. replace (u F32) with eps by (unfold u, eps; simpl; lra). change (half_tiny F32) with tiny.
  apply Rplus_le_compat_r, Rmult_le_compat_l; [unfold eps; lra|exact H].
Qed.
Lemma tiny_small : 0 < tiny <= / 1000000000000. 
Proof. unfold tiny. split; [apply Rinv_0_lt_compat, pow_lt; lra|]. apply Rinv_le_contravar; [lra|]. apply Rle_trans with (2 ^ 40); [simpl; lra|]. apply Rle_pow; [lra|lia]. Qed.

(** ** The integer nearest to x / ln 2 *)
Lemma clamp_ok w : finite (decode (clamp_w w)) /\ - 11583653 / 131072 <= real (decode (clamp_w w)) <= 11583653 / 131072 /\
  (finite (decode w) -> - 11583653 / 131072 <= real (decode w) <= 11583653 / 131072 -> real (decode (clamp_w w)) = real (decode w)).
Proof.
  destruct hi_real as (Fh & Eh), lo_real as (Fl & El). unfold clamp_w. cbn [bin words].
  set (c := if flt (decode w) (decode hi_w) then w else hi_w).
  assert (D : decode c = (if flt (decode w) (decode hi_w) then decode w else decode hi_w)) by (unfold c; now destruct (flt _ _)).
  assert (C : finite (decode c) /\ real (decode c) <= real (decode hi_w) \/ decode c = B754_infinity true).
  { rewrite D. destruct (flt (decode w) (decode hi_w)) eqn:E; [|left; split; [exact Fh|lra]].
    destruct (decode w) as [s|[|]| |s m e Hb] eqn:Ew; try (left; split; [reflexivity|apply Rlt_le; apply lt_eq in E; auto; reflexivity]); [right; reflexivity| |].
    - exfalso. revert E. rewrite hi_eq. vm_compute. discriminate.
    - exfalso. revert E. unfold flt. rewrite hi_eq. vm_compute. discriminate. }
  assert (M : finite (decode (if flt (decode lo_w) (decode c) then c else lo_w)) /\ real (decode lo_w) <= real (decode (if flt (decode lo_w) (decode c) then c else lo_w)) <= real (decode hi_w)).
  { destruct C as [(Fc & Uc)|Ec].
    - destruct (flt (decode lo_w) (decode c)) eqn:E; [apply lt_eq in E; auto; split; [exact Fc|lra]|split; [exact Fl|lra]].
    - destruct (flt (decode lo_w) (decode c)) eqn:E; [|split; [exact Fl|lra]]. exfalso. rewrite Ec in E. revert E. rewrite lo_eq. vm_compute. discriminate. }
  destruct M as (M1 & M2). split; [exact M1|split; [lra|]].
  intros Fw (Hl & Hh). assert (real (decode c) = real (decode w) /\ finite (decode c)) as (Ec & Fc).
  { rewrite D. destruct (flt (decode w) (decode hi_w)) eqn:E; [split; [reflexivity|exact Fw]|]. apply lt_false in E; auto. split; [lra|exact Fh]. }
  destruct (flt (decode lo_w) (decode c)) eqn:E; [exact Ec|]. apply lt_false in E; auto. lra.
Qed.
(** t is c * log2(e) + 1/2, up to the roundings *)
Lemma scaled_ok c : finite (decode c) -> - 11583653 / 131072 <= real (decode c) <= 11583653 / 131072 ->
  let t := decode (scaled_w c) in
  finite t /\ - 127 <= real t < 128 /\ Rabs (real t - (real (decode c) * (12102203 / 8388608) + / 2)) <= / 50000 /\ (real t = 0 -> Bsign t = false).
Proof.
  intros Fc Hc t. destruct log2e_real as (Fl & El), half_real as (Fh & Eh). unfold t, scaled_w. cbn [bin words]. unfold arith. rewrite !decode_encode.
  assert (R1 : rep F32 (127.5 - / 131072)) by (apply (rep_dyadic F32 (16711679) (-17)); [change (-17)%Z with (Z.neg 17); rewrite neg_pow; cbn [Zpower_pos Pos.iter Z.mul Pos.mul]; lra|reflexivity|cbn; lia|cbn; lia]).
  assert (R2 := rep_opp _ _ R1).
  assert (R3 : rep F32 (128 - / 131072)) by (apply (rep_dyadic F32 (16777215) (-17)); [change (-17)%Z with (Z.neg 17); rewrite neg_pow; cbn [Zpower_pos Pos.iter Z.mul Pos.mul]; lra|reflexivity|cbn; lia|cbn; lia]).
  assert (R4 : rep F32 (- 127)) by (apply (rep_int F32 (-127)); reflexivity).
  set (c' := decode c) in *. set (L := decode log2e_w) in *. set (h := decode half_w) in *.
  destruct (mul_in F32 c' L _ _ Fc Fl R2 R1) as (Fz & Bz & Ez); [rewrite El; lra|].
  destruct (mul_step c' L 127.5 Fc Fl) as (_ & Zz); [rewrite El; apply Rabs_le; lra|simpl; lra|].
  set (z := fmul c' L) in *.
  destruct (add_in F32 z h _ _ Fz Fh R4 R3) as (Ft & Bt & Et); [rewrite Eh; lra|].
  destruct (add_step z h 128 Fz Fh) as (_ & Zt); [rewrite Eh; apply Rabs_le; lra|simpl; lra|].
  split; [exact Ft|]. split; [lra|]. split.
  - pose proof tiny_small. rewrite El in Zz. rewrite Eh in Zt. apply Rabs_le_inv in Zz, Zt. unfold eps in *. apply Rabs_le. lra.
  - intros E0. pose proof (@Bplus_correct (prec F32) (emax F32) (prec_pos F32) (prec_emax F32) mode_NE z h Fz Fh) as C.
    fold (fadd z h) in C. rewrite <- limit_eq, <- nearest_eq in C. fold (real z) (real h) in C. rewrite <- Et in C.
    destruct (Rlt_bool_spec (Rabs (real (fadd z h))) (limit F32)) as [Q|Q]; [|exfalso; rewrite E0, Rabs_R0 in Q; apply Rlt_not_le in Q; [exact Q|rewrite limit_eq; apply bpow_gt_0]].
    destruct C as (_ & _ & C). rewrite C. destruct (Rcompare_spec (real z + real h) 0) as [G|G|G].
    + exfalso. pose proof (plus_error_rel F32 z h) as P. rewrite <- Et, E0, Rminus_0_l, Rabs_Ropp, (Rabs_left _ G) in P.
      replace (u F32) with eps in P by (unfold u, eps; simpl; lra). unfold eps in P. lra.
    + replace (Bsign h) with false; [apply andb_false_r|]. unfold h. rewrite half_eq. vm_compute. reflexivity.
    + reflexivity.
Qed.

Lemma floor_of_eq s m e : floor_of s m e = Zfloor (IZR (SpecFloat.cond_Zopp s (Zpos m)) * bpow radix2 e).
Proof.
  unfold floor_of. cbv zeta. set (v := SpecFloat.cond_Zopp s (Zpos m)). destruct (Z.leb_spec 0 e) as [H|H].
  - rewrite <- IZR_Zpower by exact H. rewrite <- mult_IZR, Zfloor_IZR. reflexivity.
  - replace (bpow radix2 e) with (/ IZR (2 ^ - e)); [|change 2%Z with (radix_val radix2); rewrite IZR_Zpower by lia; rewrite <- bpow_opp; f_equal; lia].
    change (IZR v * / IZR (2 ^ - e)) with (IZR v / IZR (2 ^ - e)). symmetry. apply Zfloor_div. assert (0 < 2 ^ - e)%Z by (apply Z.pow_pos_nonneg; lia). lia.
Qed.
Lemma trunc_of_eq s m e : trunc_of s m e = Ztrunc (IZR (SpecFloat.cond_Zopp s (Zpos m)) * bpow radix2 e).
Proof.
  assert (Q : floor_of false m e = if (0 <=? e)%Z then (Zpos m * 2 ^ e)%Z else (Zpos m / 2 ^ - e)%Z) by reflexivity.
  unfold trunc_of. rewrite <- Q, floor_of_eq. cbn [SpecFloat.cond_Zopp].
  assert (0 <= IZR (Zpos m) * bpow radix2 e) by (apply Rmult_le_pos; [apply IZR_le; lia|apply bpow_ge_0]).
  destruct s; cbn [SpecFloat.cond_Zopp]; [|symmetry; apply Ztrunc_floor; exact H].
  rewrite opp_IZR, Ropp_mult_distr_l_reverse, Ztrunc_opp, Ztrunc_floor by exact H. reflexivity.
Qed.
Lemma real_finite s m e H : real (B754_finite s m e H : val F32) = IZR (SpecFloat.cond_Zopp s (Zpos m)) * bpow radix2 e.
Proof. reflexivity. Qed.
Lemma round_down_eq w : finite (decode w) -> (real (decode w) = 0 -> Bsign (decode w) = false) -> decode (round_down w) = lit (Zfloor (real (decode w))) 0.
Proof.
  intros F S. unfold round_down. destruct (decode w) as [s|s| |s m e H] eqn:E; try discriminate.
  - specialize (S eq_refl). cbn in S. subst s. rewrite E. replace (Zfloor (real (B754_zero false : val F32))) with 0%Z; [reflexivity|]. symmetry. apply (Zfloor_IZR 0).
  - rewrite decode_encode, floor_of_eq, real_finite. reflexivity.
Qed.
Lemma to_int_eq w : finite (decode w) -> - 1000 <= real (decode w) <= 1000 -> to_int w = wrap (Ztrunc (real (decode w))).
Proof.
  intros F Bd. unfold to_int. destruct (decode w) as [s|s| |s m e H] eqn:E; try discriminate.
  - replace (Ztrunc (real (B754_zero s : val F32))) with 0%Z; [reflexivity|]. symmetry. apply (Ztrunc_IZR 0).
  - rewrite trunc_of_eq, <- real_finite with (H := H).
    assert (-1000 <= Ztrunc (real (B754_finite s m e H : val F32)) <= 1000)%Z.
    { split; [rewrite <- (Ztrunc_IZR (-1000))|rewrite <- (Ztrunc_IZR 1000)]; apply Ztrunc_le; apply Bd. }
    cbv zeta. destruct (Z.leb_spec (- 2 ^ 31) (Ztrunc (real (B754_finite s m e H : val F32)))), (Z.ltb_spec (Ztrunc (real (B754_finite s m e H : val F32))) (2 ^ 31)); try lia. reflexivity.
Qed.
Lemma of_int_eq k : (-1000 <= k <= 1000)%Z -> decode (of_int (wrap k)) = lit k 0.
Proof.
  intros H. unfold of_int. rewrite decode_encode. f_equal. unfold wrap. destruct (Z.leb_spec 0 k).
  - rewrite Z.mod_small by lia. destruct (Z.ltb_spec k (2 ^ 31)); lia.
  - replace (k mod 2 ^ 32)%Z with (k + 2 ^ 32)%Z; [destruct (Z.ltb_spec (k + 2 ^ 32) (2 ^ 31)); lia|]. apply Z.mod_unique with (-1)%Z; lia.
Qed.

(** ** What is done with the integer: 255 cases *)
Definition all_ints (P : Z -> bool) : bool := forallb P (map (fun n => Z.of_nat n - 130)%Z (seq 0 262)).
Lemma all_ints_ok P : all_ints P = true -> forall n, (-130 <= n <= 130)%Z -> P n = true.
Proof.
  intros H n Hn. unfold all_ints in H. rewrite forallb_forall in H. apply H. apply in_map_iff. exists (Z.to_nat (n + 130)). split; [lia|]. apply in_seq. lia.
Qed.
Definition same_sf (x y : val F32) : bool :=
  match B2SF x, B2SF y with
  | SpecFloat.S754_zero s, SpecFloat.S754_zero s' => Bool.eqb s s'
  | SpecFloat.S754_infinity s, SpecFloat.S754_infinity s' => Bool.eqb s s'
  | SpecFloat.S754_nan, SpecFloat.S754_nan => true
  | SpecFloat.S754_finite s m e, SpecFloat.S754_finite s' m' e' => Bool.eqb s s' && Pos.eqb m m' && Z.eqb e e'
  | _, _ => false
  end.
Lemma same_sf_ok x y : same_sf x y = true -> x = y.
Proof.
  intros H. apply B2SF_inj. unfold same_sf in H. destruct (B2SF x), (B2SF y); try discriminate; try reflexivity; try (now apply eqb_prop in H; subst).
  rewrite !andb_true_iff in H. destruct H as ((H1 & H2) & H3). apply eqb_prop in H1. apply Pos.eqb_eq in H2. apply Z.eqb_eq in H3. now subst.
Qed.
Lemma minus_zero n : (-130 <= n <= 130)%Z -> fsub (lit n 0 : val F32) fzero = lit n 0.
Proof. intros H. apply same_sf_ok. revert n H. apply (all_ints_ok (fun n => same_sf (fsub (lit n 0) fzero) (lit n 0))). vm_compute. reflexivity. Qed.
Lemma minus_one n : (-130 <= n <= 130)%Z -> fsub (lit n 0 : val F32) (lit 1 0) = lit (n - 1) 0.
Proof. intros H. apply same_sf_ok. revert n H. apply (all_ints_ok (fun n => same_sf (fsub (lit n 0) (lit 1 0)) (lit (n - 1) 0))). vm_compute. reflexivity. Qed.
Lemma int_real n : (-130 <= n <= 130)%Z -> finite (lit n 0 : val F32) /\ real (lit n 0 : val F32) = IZR n.
Proof. intros H. apply lit32; [change (bpow radix2 0) with 1; lra|lia|lia|lia]. Qed.

(** the integer, as a float, in both kernels *)
Lemma floor_avx t : finite (decode t) -> -127 <= real (decode t) < 128 -> (real (decode t) = 0 -> Bsign (decode t) = false) ->
  let k := U Floor t in decode (B Sub k (B And (B Cmplt t k) one_w)) = lit (Zfloor (real (decode t))) 0.
Proof.
  intros F Bd S k. set (N := Zfloor (real (decode t))).
  assert (HN : (-127 <= N <= 127)%Z). { split; [apply Zfloor_lub; exact (proj1 Bd)|]. assert (N < 128)%Z; [|lia]. apply lt_IZR. eapply Rle_lt_trans; [apply Zfloor_lb|apply Bd]. }
  assert (K : decode k = lit N 0) by (apply round_down_eq; auto). destruct (int_real N) as (FN & EN); [lia|].
  cbn [bin words]. unfold arith. rewrite decode_encode, K.
  assert (flt (decode t) (lit N 0) = false) as ->.
  { destruct (flt (decode t) (lit N 0)) eqn:L; [|reflexivity]. apply lt_eq in L; auto. rewrite EN in L. pose proof (Zfloor_lb (real (decode t))). unfold N in L. lra. }
  cbn [mask]. rewrite Z.land_0_l, zero_w_eq. apply minus_zero. lia.
Qed.
Lemma floor_sse t : finite (decode t) -> -127 <= real (decode t) < 128 ->
  let k := U OfInt (U Trunc t) in decode (B Sub k (B And (B Cmplt t k) one_w)) = lit (Zfloor (real (decode t))) 0.
Proof.
  intros F Bd k. set (N := Zfloor (real (decode t))). set (T := Ztrunc (real (decode t))).
  assert (HT : (-127 <= T <= 128)%Z). { split; [rewrite <- (Ztrunc_IZR (-127))|rewrite <- (Ztrunc_IZR 128)]; apply Ztrunc_le; lra. }
  assert (K : decode k = lit T 0). { unfold k. cbn [un words]. rewrite to_int_eq by (auto; lra). apply of_int_eq. fold T. lia. }
  destruct (int_real T) as (FT & ET); [lia|]. cbn [bin words]. unfold arith. rewrite decode_encode, K.
  destruct (flt (decode t) (lit T 0)) eqn:L.
  - apply lt_eq in L; auto. rewrite ET in L. change (Z.land (mask true) one_w) with one_w. rewrite one_w_eq, minus_one by lia. f_equal.
    symmetry. apply Zfloor_imp. rewrite minus_IZR, plus_IZR, minus_IZR. split; [|lra].
    unfold T in *. destruct (Rle_or_lt 0 (real (decode t))) as [P|P]; [rewrite Ztrunc_floor in L by exact P; pose proof (Zfloor_lb (real (decode t))); lra|].
    rewrite Ztrunc_ceil by lra. pose proof (Zceil_ub (real (decode t))). pose proof (Zfloor_lb (- real (decode t))). pose proof (Zfloor_ub (- real (decode t))). unfold Zceil in *. rewrite opp_IZR in *. lra.
  - apply lt_false in L; auto. rewrite ET in L. cbn [mask]. rewrite Z.land_0_l, zero_w_eq, minus_zero by lia. f_equal. symmetry. apply Zfloor_imp. rewrite plus_IZR. split; [exact L|].
    unfold T in *. destruct (Rle_or_lt 0 (real (decode t))) as [P|P]; [rewrite Ztrunc_floor by exact P; apply Zfloor_ub|].
    rewrite Ztrunc_ceil in * by lra. pose proof (Zceil_ub (real (decode t))). lra.
Qed.
Lemma encode_inj_sub a b c d : decode (B Sub a b) = decode (B Sub c d) -> B Sub a b = B Sub c d.
Proof. cbn [bin words]. unfold arith. rewrite !decode_encode. now intros ->. Qed.
(** 2^n, by its bits *)
Definition scale_w (n : Z) : Z := B Addd (U (Shl 23) (U Trunc n)) one_w.
Definition scale_check (n : Z) : bool := if ((-126 <=? n) && (n <=? 127))%Z then same_sf (decode (scale_w (encode (lit n 0)))) (lit 1 n) else true.
Lemma scale_checked : all_ints scale_check = true. Proof. vm_compute. reflexivity. Qed.
Lemma scale_checked_at n (b : bool) : (if b then same_sf (decode (scale_w (encode (lit n 0)))) (lit 1 n) else true) = true -> b = true -> decode (scale_w (encode (lit n 0))) = lit 1 n.
Proof. intros Q ->. apply same_sf_ok. exact Q. Qed.
Lemma scale_eq n : (-126 <= n <= 127)%Z -> decode (scale_w (encode (lit n 0))) = lit 1 n.
Proof.
  intros H. assert (Hn : (-130 <= n <= 130)%Z) by lia. apply (scale_checked_at n _ (all_ints_ok scale_check scale_checked n Hn)). 
  apply andb_true_intro. split; apply Z.leb_le; lia.
Qed.
Lemma scale_low : decode (scale_w (encode (lit (-127) 0))) = fzero.
Proof. apply same_sf_ok. vm_compute. reflexivity. Qed.

(** ** The rounding errors of the polynomial *)
Lemma mul_near (x y : val F32) a Y ey bY : finite x -> finite y -> Rabs (real x) <= a -> Rabs (real y - Y) <= ey -> Rabs Y <= bY -> a * (bY + ey) <= 1000000 ->
  finite (fmul x y) /\ Rabs (real (fmul x y) - real x * Y) <= a * ey + eps * (a * (bY + ey)) + tiny.
Proof.
  intros Fx Fy Ha He Hb L. assert (Hy : Rabs (real y) <= bY + ey).
  { replace (real y) with (Y + (real y - Y)) by lra. eapply Rle_trans; [apply Rabs_triang|]. lra. }
  destruct (mul_step x y (a * (bY + ey)) Fx Fy) as (F & E); [rewrite Rabs_mult; apply Rmult_le_compat; auto using Rabs_pos|exact L|].
  split; [exact F|]. replace (real (fmul x y) - real x * Y) with ((real (fmul x y) - real x * real y) + real x * (real y - Y)) by lra.
  eapply Rle_trans; [apply Rabs_triang|]. rewrite (Rabs_mult (real x)).
  assert (Rabs (real x) * Rabs (real y - Y) <= a * ey) by (apply Rmult_le_compat; auto using Rabs_pos). lra.
Qed.
Lemma add_near (x y : val F32) X Y ex ey b : finite x -> finite y -> Rabs (real x - X) <= ex -> Rabs (real y - Y) <= ey -> Rabs (X + Y) <= b -> b + ex + ey <= 1000000 ->
  finite (fadd x y) /\ Rabs (real (fadd x y) - (X + Y)) <= ex + ey + eps * (b + ex + ey).
Proof.
  intros Fx Fy Hx Hy Hb L. assert (H : Rabs (real x + real y) <= b + ex + ey).
  { replace (real x + real y) with ((X + Y) + ((real x - X) + (real y - Y))) by lra. eapply Rle_trans; [apply Rabs_triang|].
    pose proof (Rabs_triang (real x - X) (real y - Y)). lra. }
  destruct (add_step x y _ Fx Fy H L) as (F & E). split; [exact F|].
  replace (real (fadd x y) - (X + Y)) with ((real (fadd x y) - (real x + real y)) + ((real x - X) + (real y - Y))) by lra.
  eapply Rle_trans; [apply Rabs_triang|]. pose proof (Rabs_triang (real x - X) (real y - Y)). lra.
Qed.
Lemma abs_mul_add r a Q b P : Rabs r <= a -> Rabs Q <= b -> 0 <= P -> Rabs (r * Q) <= a * b /\ Rabs (r * Q + P) <= a * b + P.
Proof.
  intros H1 H2 HP. assert (Rabs (r * Q) <= a * b) by (rewrite Rabs_mult; apply Rmult_le_compat; auto using Rabs_pos). split; [assumption|].
  eapply Rle_trans; [apply Rabs_triang|]. rewrite (Rabs_right P); lra.
Qed.
Lemma self x : Rabs (x - x) <= 0. Proof. rewrite Rminus_diag_eq by reflexivity. rewrite Rabs_R0. lra. Qed.
(** one step of the Horner scheme: q is near Q; then fl(fl(r q) + p) is near r Q + p *)
Lemma horner (r q p : val F32) a Q eq bQ P : finite r -> finite q -> finite p -> real p = P -> 0 <= P <= 1 -> Rabs (real r) <= a -> 0 <= a <= 1 -> Rabs (real q - Q) <= eq -> 0 <= eq <= 1 -> Rabs Q <= bQ -> bQ <= 1 ->
  finite (fadd (fmul r q) p) /\ Rabs (real (fadd (fmul r q) p) - (real r * Q + P)) <= a * eq + eps * (2 * (a * bQ) + P + 2 * a * eq + 3 * eps) + 2 * tiny /\ Rabs (real r * Q + P) <= a * bQ + P.
Proof.
  intros Fr Fq Fp Ep HP Ha Ha1 He He1 HQ HQ1. pose proof (Rabs_pos Q).
  assert (0 <= bQ) by lra. assert (a * (bQ + eq) <= 2) by nra. assert (0 <= a * eq <= 1) by nra. assert (0 <= a * bQ <= 1) by nra.
  pose proof tiny_small.
  destruct (mul_near r q a Q eq bQ Fr Fq Ha He HQ) as (F1 & E1); [lra|].
  destruct (abs_mul_add (real r) a Q bQ P Ha HQ (proj1 HP)) as (B1 & B2).
  destruct (add_near (fmul r q) p (real r * Q) P (a * eq + eps * (a * (bQ + eq)) + tiny) 0 (a * bQ + P) F1 Fp E1) as (F2 & E2); [rewrite Ep; apply self|exact B2|unfold eps; lra|].
  split; [exact F2|split; [|exact B2]]. eapply Rle_trans; [exact E2|]. unfold eps in *. nra.
Qed.
