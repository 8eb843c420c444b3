(** * Proofs: the matrix products and cumulative sums in floating point *)
From Coq Require Import ZArith String Bool List Lia Arith Permutation Reals Lra.
From Flocq Require Import Core BinarySingleNaN.
From Verif Require Import FloatModel FloatSpec FloatProofs NumModel NumSpec NumLemmas.
From Verif Require Import AsmModel AsmLemmas AsmSpec AsmCalls AsmFloatSpec AsmFloat AsmFloat2 AsmProofs6.
From Verif Require DenseModel DenseLemmas GemModel ArithProofs ArithModel.
From Verif Require Import GemSpec GemCalls GemProofs GemAxpy4 GemGemv2 GemCumSum GemEntries GemFloatSpec.
Import ListNotations.
Open Scope string_scope.
Open Scope list_scope.
Open Scope nat_scope.

(** ** Lists *)
Lemma combine_terms {T} (z : T) la lb i n : length la >= i + n -> length lb = n ->
  combine (firstn n (skipn i la)) lb = map (fun l => (nth (i + l) la z, nth l lb z)) (seq 0 n).
Proof.
  intros H K. apply (DenseLemmas.nth_ext). intros k. rewrite nth_error_combine, DenseLemmas.nth_map, DenseLemmas.nth_seq.
  destruct (Nat.ltb_spec k n) as [Q|Q]; cbn [option_map].
  - rewrite (nth_error_nth' lb z) by lia. rewrite (nth_error_nth' _ z) by (rewrite firstn_length, skipn_length; lia).
    f_equal. f_equal. change (firstn n (skipn i la)) with (firstn n (skipn i la)). replace n with (i + n - i) by lia. apply (ArithProofs.slice_nth z la i (i + n) k). lia.
  - rewrite (proj2 (nth_error_None _ k)); [reflexivity|]. rewrite firstn_length. lia.
Qed.

(** ** The column path of float32 *)
Section Vec.
Variable A : lanes.
Variable esize : Z.
Variable half : nat.
Notation L := (lane A).
Notation slice := (AsmSpec.slice A esize).
Notation within := (within esize).
Notation apart := (apart esize).
Hypothesis esize_pos : (0 < esize)%Z.
Lemma dot_call_ok c x y lx ly m (Q : L -> (Z -> option L) -> Prop) : computes_dot A esize half c -> len x = length lx -> length ly = length lx -> slice m (ptr x) lx -> slice m (ptr y) ly -> (ptr y mod esize = 0)%Z ->
  (forall v, dot_of A v (combine lx ly) -> Q v m) -> dot_call A esize half c x y m Q.
Proof.
  intros H Lx Ly Sx Sy Al K st Hm. subst m. set (F := mkFrame A (frame (slice_args "x1" x ++ slice_args "x2" y)) (fun _ => zero A)).
  destruct (H F st (ptr x) (ptr y) lx ly) as (st' & v & R & V & D & M); auto.
  - cbn. now rewrite Lx.
  - exists st', v. split; [exact R|]. split; [exact V|]. rewrite M. now apply K.
Qed.
Lemma set_ok (m : Z -> option L) o i v w : i < len o -> m (ptr o + esize * Z.of_nat i)%Z = Some w ->
  exists m', set A esize m o i v = Some m' /\ m' (ptr o + esize * Z.of_nat i)%Z = Some v /\ (forall p, p <> (ptr o + esize * Z.of_nat i)%Z -> m' p = m p).
Proof.
  intros Hi E. unfold set. rewrite (proj2 (Nat.ltb_lt _ _) Hi). cbn [write]. rewrite E. eexists. split; [reflexivity|]. cbv beta. split.
  - now rewrite Z.eqb_refl.
  - intros p Hp. destruct (Z.eqb_spec p (ptr o + esize * Z.of_nat i)); [contradiction|reflexivity].
Qed.
Lemma MulVec_ok c n dc a b o la lb m0 (Q : (Z -> option L) -> Prop) : computes_dot A esize half c -> len a = length la -> length la = n * dc -> length lb = dc -> len o = n ->
  apart (ptr a) (len a) (ptr o) n -> apart (ptr b) dc (ptr o) n -> (ptr b mod esize = 0)%Z ->
  forall k i m, i + k = n -> slice m (ptr a) la -> slice m (ptr b) lb -> (forall r, r < n -> m (ptr o + esize * Z.of_nat r)%Z <> None) ->
  (forall r, r < i -> exists v, m (ptr o + esize * Z.of_nat r)%Z = Some v /\ dot_of A v (map (fun l => (nth (r * dc + l) la (zero A), nth l lb (zero A))) (seq 0 dc))) ->
  (forall p, ~ within (ptr o) n p -> m p = m0 p) ->
  (forall m', (forall r, r < n -> exists v, m' (ptr o + esize * Z.of_nat r)%Z = Some v /\ dot_of A v (map (fun l => (nth (r * dc + l) la (zero A), nth l lb (zero A))) (seq 0 dc))) ->
     (forall p, ~ within (ptr o) n p -> m' p = m0 p) -> Q m') ->
  mul_vec A esize half c dc (i * dc) a b o i k m Q.
Proof.
  intros H La La' Lb Lo Da Db Al. induction k as [|k IH]; intros i m Hi Sa Sb So Done Fr K.
  - cbn. apply K; [|exact Fr]. intros r Hr. apply Done. lia.
  - exists (mkSlice (ptr a + esize * Z.of_nat (i * dc))%Z dc). split; [rewrite sub_some by nia; f_equal; f_equal; lia|].
    assert (Lx : length (DenseModel.slice la (i * dc) (i * dc + dc)) = dc) by (rewrite DenseLemmas.slice_length by nia; lia).
    apply (dot_call_ok c _ _ (DenseModel.slice la (i * dc) (i * dc + dc)) lb); cbn [ptr len]; auto; try lia.
    + now apply slice_sub.
    + intros v D. destruct (m (ptr o + esize * Z.of_nat i)%Z) as [w|] eqn:E; [|exfalso; apply (So i); [lia|exact E]].
      destruct (set_ok m o i v w) as (m1 & W & V & F); [lia|exact E|]. exists m1. split; [exact W|].
      replace (i * dc + dc) with (S i * dc) by lia.
      assert (F' : forall p, ~ within (ptr o) n p -> m1 p = m p). { intros p Hp. apply F. intros ->. apply Hp. exists i. split; [lia|reflexivity]. }
      apply IH; auto.
      * lia.
      * eapply slice_keep; [exact Sa|exact F'|]. now rewrite <- La.
      * eapply slice_keep; [exact Sb|exact F'|]. now rewrite Lb.
      * intros r Hr. destruct (Nat.eq_dec r i) as [->|N]; [now rewrite V|]. rewrite F by nia. now apply So.
      * intros r Hr. destruct (Nat.eq_dec r i) as [->|N].
        -- exists v. split; [exact V|]. unfold DenseModel.slice in D. replace (i * dc + dc - i * dc) with dc in D by lia.
           rewrite (combine_terms (zero A)) in D by nia. exact D.
        -- rewrite F by nia. apply Done. lia.
      * intros p Hp. rewrite F'; auto.
Qed.
End Vec.

(** ** In floating point *)
Lemma esize_pos d : (0 < esize_of d)%Z. Proof. destruct d; reflexivity. Qed.
Lemma axpy_ok d : computes_axpy (floats d) (esize_of d) (half_of d) comis (Axpy d).
Proof. destruct d; [apply axpy32_ok | apply axpy64_ok]. Qed.
Lemma axpy_to_ok d : computes_axpy_to (floats d) (esize_of d) (half_of d) comis (AxpyTo d).
Proof. destruct d; [apply axpy_to32_ok | apply axpy_to64_ok]. Qed.
Lemma go_zero_eq d (v : val d) : go_zero v = match v with B754_zero _ => true | _ => false end.
Proof. destruct v as [s|s| |s m e B]; try destruct s; reflexivity. Qed.
Lemma nonzero_eq d (l : list (val d * val d)) : filter (fun p => negb (go_zero (fst p))) l = nonzero l.
Proof. apply filter_ext. intros [x y]. cbn [fst]. rewrite go_zero_eq. now destruct x. Qed.
Lemma fone_finite d : exists m e B, @fone d = B754_finite false m e B.
Proof.
  assert (H : exists m e, B2SF (@fone d) = SpecFloat.S754_finite false m e) by (destruct d; vm_compute; eauto).
  destruct H as (m & e & H). destruct (@fone d) as [s|s| |s m' e' B]; try discriminate H. injection H as -> -> ->. eauto.
Qed.
Lemma real_fone d : real (@fone d) = 1%R.
Proof.
  assert (H : B2SF (@fone d) = SpecFloat.S754_finite false (match d with F32 => 8388608 | F64 => 4503599627370496 end) (match d with F32 => -23 | F64 => -52 end)) by (destruct d; vm_compute; reflexivity).
  unfold real. rewrite <- SF2R_B2SF, H. cbn [SF2R]. unfold F2R. destruct d; cbn [Fnum Fexp cond_Zopp bpow]; cbn; lra.
Qed.
Lemma fmul_one d (v : val d) : fmul v fone = v.
Proof.
  destruct v as [s|s| |s m e B].
  - destruct (fone_finite d) as (m & e & B & ->). cbn. now rewrite xorb_false_r.
  - destruct (fone_finite d) as (m & e & B & ->). cbn. now rewrite xorb_false_r.
  - destruct (fone_finite d) as (m & e & B & ->). reflexivity.
  - set (v := B754_finite s m e B). pose proof (Bmult_correct (prec d) (emax d) (prec_pos d) (prec_emax d) mode_NE v fone) as H.
    change (B2R (@fone d)) with (real (@fone d)) in H. rewrite real_fone, Rmult_1_r in H. rewrite round_generic in H; [|apply valid_rnd_round_mode|apply generic_format_B2R].
    rewrite Rlt_bool_true in H by apply abs_B2R_lt_emax. destruct H as (H1 & H2 & H3).
    destruct (fone_finite d) as (m1 & e1 & B1 & E1). apply B2R_Bsign_inj; [| |exact H1|].
    + unfold fmul. rewrite H2, E1. reflexivity.
    + reflexivity.
    + unfold fmul. rewrite H3; [rewrite E1; cbn; apply xorb_false_r|]. unfold fmul in *. destruct (Bmult mode_NE v fone); try reflexivity. rewrite E1 in H2. discriminate H2.
Qed.

Section Float.
Variable d : dtype.
Notation E := (esize_of d).
Notation memory := (Z -> option (val d)).
Lemma matrix_mul_ok rows cols bc a b o la lb m : bc <> 1 -> length la = rows * cols -> length lb = cols * bc ->
  holds E m (ptr a) (len a) la -> holds E m (ptr b) (len b) lb -> holds E m (ptr o) (len o) (repeat fzero (rows * bc)) ->
  apart E (ptr a) (len a) (ptr o) (len o) -> apart E (ptr b) (len b) (ptr o) (len o) -> (ptr o mod E = 0)%Z ->
  forall Q : memory -> Prop,
  (forall m', mul_post d rows cols bc la lb o m m' -> holds E m' (ptr o) (len o) (ArithModel.mul_rows fzero fadd fmul go_zero cols bc la lb 0 rows (repeat fzero (rows * bc))) -> Q m') ->
  MatrixMul (floats d) E (half_of d) comis go_zero (Axpy d) rows cols bc a b o m Q.
Proof.
  intros N La Lb (Na & Sa) (Nb & Sb) (No & So) Da Db Al Q K. rewrite repeat_length in No.
  destruct (mul_rows_dot (floats d) go_zero cols bc rows la lb La Lb rows 0 (repeat fzero (rows * bc))) as (L & D); auto.
  { apply repeat_length. } { intros x y _ _ _. apply nth_repeat. }
  apply (MatrixMul_ok (floats d) E (half_of d) comis go_zero (esize_pos d) (fadd_comm d) (fmul_comm d) (Axpy d) rows cols bc a b o la lb) with (lo := repeat fzero (rows * bc)); auto.
  - apply axpy_ok.
  - apply repeat_length.
  - intros m' S' F'. apply K; [split; [|exact F']|].
    + intros i j Hi Hj. eexists. split; [apply S'; apply nth_error_nth'; cbn [lane floats bin zero] in L |- *; rewrite L; nia|].
      specialize (D i j Hi Hj). cbn [Nat.leb] in D. unfold used. rewrite (proj2 (Nat.eqb_neq bc 1) N), <- nonzero_eq. exact D.
    + split; [|exact S']. cbn [lane floats bin zero] in L. rewrite L. exact No.
Qed.
End Float.

Lemma mul_ok d c rows cols bc a b o la lb m : length la = rows * cols -> length lb = cols * bc ->
  holds (esize_of d) m (ptr a) (len a) la -> holds (esize_of d) m (ptr b) (len b) lb -> holds (esize_of d) m (ptr o) (len o) (repeat fzero (rows * bc)) ->
  apart (esize_of d) (ptr a) (len a) (ptr o) (len o) -> apart (esize_of d) (ptr b) (len b) (ptr o) (len o) -> (ptr b mod esize_of d = 0)%Z -> (ptr o mod esize_of d = 0)%Z ->
  MatMul d c rows cols bc a b o m (mul_post d rows cols bc la lb o m).
Proof.
  intros La Lb Ha Hb Ho Da Db Alb Al. unfold MatMul. destruct (Nat.eqb_spec bc 1) as [->|N].
  - destruct Ha as (Na & Sa), Hb as (Nb & Sb), Ho as (No & So). rewrite repeat_length, Nat.mul_1_r in No. rewrite Nat.mul_1_r in Lb, So.
    assert (T : forall i j, j < 1 -> used 1 (terms cols 1 la lb i j) = map (fun l => (nth (i * cols + l) la fzero, nth l lb fzero)) (seq 0 cols)).
    { intros i j Hj. unfold used, terms. cbn [Nat.eqb]. apply map_ext. intros l. f_equal. f_equal. lia. }
    destruct d; cbn [esize_of] in *.
    + unfold MulVec. rewrite No.
      apply (MulVec_ok (floats F32) 4 4 ltac:(lia) (DotProd32 c) rows cols a b o la lb m _ (dot32_ok (floats F32) c)) with (i := 0) (k := rows) (m := m); auto.
      * now rewrite <- No.
      * rewrite <- Lb, <- Nb, <- No. exact Db.
      * intros r Hr. rewrite (So r fzero); [discriminate|]. rewrite nth_error_repeat by exact Hr. reflexivity.
      * intros r Hr. lia.
      * intros m' V F. split; [|rewrite No; exact F]. intros i j Hi Hj. destruct (V i Hi) as (v & Ev & Dv). exists v. rewrite T by exact Hj. split; [|exact Dv]. etransitivity; [|exact Ev]. f_equal. cbn [esize_of]. lia.
    + intros st Hm Ha. subst m.
      destruct (gemv_ok (floats F64) comis (fun s => if String.eqb s "alpha" then fone else zero (floats F64)) st rows cols (ptr a) (ptr b) (ptr o) la lb (repeat fzero rows)) as (st' & R & V & F);
        try (rewrite Ha; reflexivity); auto.
      * apply repeat_length.
      * rewrite <- La, <- Na, <- No. exact Da.
      * rewrite <- Lb, <- Nb, <- No. exact Db.
      * exists st'. split; [exact R|]. split.
        -- intros i j Hi Hj. rewrite T by exact Hj. replace (i * 1 + j) with i by lia. cbn [esize_of]. destruct (Nat.eq_dec cols 0) as [->|Nc].
           ++ rewrite F. 2: { intros (q & Hq & _). cbn in Hq. lia. } exists fzero. split; [apply So; rewrite nth_error_repeat by exact Hi; reflexivity|]. cbn. constructor.
           ++ destruct (V i Hi ltac:(lia)) as (v & Dv & Ev). exists (fadd fzero v). split.
              { rewrite Ev. f_equal. cbn [bin floats zero]. change (String.eqb "beta" "alpha") with false. change (String.eqb "alpha" "alpha") with true. cbv iota.
                rewrite fmul_one. reflexivity. }
              rewrite (combine_terms (zero (floats F64))) in Dv; [|unfold ge; etransitivity; [|apply Nat.eq_le_incl; symmetry; exact La]; nia|exact Lb]. eapply (dot_add (floats F64)); [apply dot_zero|exact Dv|reflexivity].
        -- intros p W. apply F. intros (q & Hq & Ep). apply W. exists q. split; [|exact Ep]. rewrite No. destruct (cols =? 0); [lia|exact Hq].
  - apply (matrix_mul_ok d rows cols bc a b o la lb m); auto.
Qed.

(** ** MulT *)
Lemma mul_t_ok d cols a b o la lt m : length la = length lt * cols ->
  holds (esize_of d) m (ptr a) (len a) la -> holds (esize_of d) m (ptr b) (len b) lt -> holds (esize_of d) m (ptr o) (len o) (repeat fzero cols) ->
  apart (esize_of d) (ptr a) (len a) (ptr o) (len o) -> apart (esize_of d) (ptr b) (len b) (ptr o) (len o) -> (ptr o mod esize_of d = 0)%Z ->
  MatMulT d cols a b o m (fun m' => mul_t_post d cols la lt o m m' /\ holds (esize_of d) m' (ptr o) (len o) (ArithModel.mul_t_loop fzero fadd fmul cols 0 la lt (repeat fzero cols))).
Proof.
  intros La (Na & Sa) (Nb & Sb) (No & So) Da Db Al. rewrite repeat_length in No. unfold MatMulT, MulT. rewrite Nb.
  pose proof (mul_t_length (floats d) cols la (length lt) La lt 0 (repeat fzero cols) (repeat_length _ _) eq_refl) as L.
  apply (MulT_ok (floats d) (esize_of d) (half_of d) comis (esize_pos d) (fmul_comm d) (AxpyTo d) cols a b o la lt) with (i := 0) (lo := repeat fzero cols); auto.
  - apply axpy_to_ok.
  - now rewrite <- No.
  - now rewrite <- No.
  - apply repeat_length.
  - intros m' S' F'. split; [split; [|rewrite No; exact F']|].
    + intros p Hp. eexists. split; [apply S'; apply nth_error_nth'; cbn [lane floats bin zero skipn] in L |- *; eapply Nat.lt_le_trans; [exact Hp|apply Nat.eq_le_incl; symmetry; exact L]|].
      apply (mul_t_dot (floats d) (fadd_comm d) cols la (length lt) La lt 0 (repeat fzero cols) [] p (repeat_length _ _) eq_refl Hp).
      cbn [lane floats]. rewrite nth_repeat. constructor.
    + split; [|exact S']. rewrite No. symmetry. exact L.
Qed.

(** ** CumSum *)
Lemma cumsum_loop_ok a o (l : list (val F32)) m0 : len a = length l -> len o = length l -> apart 4 (ptr a) (len a) (ptr o) (len o) ->
  forall k i m, S i + k = length l -> slice (floats F32) 4 m (ptr a) l -> (forall r, r < length l -> m (ptr o + 4 * Z.of_nat r)%Z <> None) ->
  (forall r, r <= i -> exists v, m (ptr o + 4 * Z.of_nat r)%Z = Some v /\ sum_of (floats F32) v (firstn (S r) l)) ->
  (forall p, ~ within 4 (ptr o) (len o) p -> m p = m0 p) -> cumsum_loop o a i k m (cumsum_post F32 l o m0).
Proof.
  intros La Lo D. induction k as [|k IH]; intros i m Hi Sa So Done Fr.
  - cbn. split; [|exact Fr]. intros r Hr. apply Done. lia.
  - destruct (Done i ltac:(lia)) as (w & Ew & Dw). set (v := nth (S i) l fzero).
    destruct (m (ptr o + 4 * Z.of_nat (S i))%Z) as [z|] eqn:Ez; [|exfalso; apply (So (S i)); [lia|exact Ez]].
    destruct (set_ok (floats F32) 4 m o (S i) (fadd w v) z) as (m1 & W & V & F); [lia|exact Ez|].
    assert (F' : forall p, ~ within 4 (ptr o) (len o) p -> m1 p = m p). { intros p Hp. apply F. intros ->. apply Hp. exists (S i). split; [lia|reflexivity]. }
    exists v, w, m1. split; [|split; [|split; [exact W|]]].
    + unfold get. rewrite La, (proj2 (Nat.ltb_lt _ _)) by lia. apply Sa. apply nth_error_nth'. lia.
    + unfold get. rewrite Lo, (proj2 (Nat.ltb_lt _ _)) by lia. exact Ew.
    + apply IH.
      * lia.
      * eapply slice_keep; [exact Sa|exact F'|]. change (apart 4 (ptr a) (length l) (ptr o) (len o)). rewrite <- La. exact D.
      * intros r Hr. destruct (Nat.eq_dec r (S i)) as [->|N]; [now rewrite V|]. rewrite F by lia. now apply So.
      * intros r Hr. destruct (Nat.eq_dec r (S i)) as [->|N].
        -- exists (fadd w v). split; [exact V|]. eapply (sum_add (floats F32)); [exact Dw|apply sum_one|].
           assert (Q : firstn (S (S i)) l = firstn (S i) l ++ [v]); [|rewrite Q; reflexivity].
           unfold v. clear -Hi. assert (H : S i < length l) by lia. clear Hi. revert l H. generalize (S i) as n. induction n as [|n IH]; intros [|x l] H; cbn in *; try lia; [reflexivity|]. f_equal. apply IH. lia.
        -- rewrite F by lia. apply Done. lia.
      * intros p Hp. rewrite F'; auto.
Qed.
Lemma cumsum_ok' d a o (l : list (val d)) lo m : holds (esize_of d) m (ptr a) (len a) l -> holds (esize_of d) m (ptr o) (len o) lo -> length lo = length l ->
  apart (esize_of d) (ptr a) (len a) (ptr o) (len o) -> MatCumSum d o a m (cumsum_post d l o m).
Proof.
  intros (Na & Sa) (No & So) E D. unfold MatCumSum. destruct (len a) as [|n] eqn:El.
  - split; [|reflexivity]. intros i Hi. lia.
  - destruct d; cbn [esize_of] in *.
    + unfold CumSum32. rewrite El. destruct l as [|x l]; [discriminate|]. destruct lo as [|y lo]; [discriminate|].
      destruct (set_ok (floats F32) 4 m o 0 x y) as (m1 & W & V & F); [lia|now apply (So 0)|].
      assert (F' : forall p, ~ within 4 (ptr o) (len o) p -> m1 p = m p). { intros p Hp. apply F. intros ->. apply Hp. exists 0. split; [lia|reflexivity]. }
      exists x, m1. split; [unfold get; rewrite El; cbn [Nat.ltb Nat.leb]; now apply (Sa 0)|]. split; [exact W|].
      apply cumsum_loop_ok.
      * congruence.
      * congruence.
      * now rewrite El.
      * cbn in Na |- *. lia.
      * eapply slice_keep; [exact Sa|exact F'|]. change (apart 4 (ptr a) (length (x :: l)) (ptr o) (len o)). rewrite <- Na. exact D.
      * intros r Hr. destruct r as [|r]; [now rewrite V|]. rewrite F by lia. destruct (nth_error (y :: lo) (S r)) as [z|] eqn:Q; [now rewrite (So _ _ Q)|]. apply nth_error_None in Q. lia.
      * intros r Hr. assert (r = 0) by lia. subst r. exists x. split; [exact V|]. cbn. apply sum_one.
      * exact F'.
    + intros st Hm Ha. subst m.
      destruct (cumsum_ok (floats F64) comis (fun _ => zero (floats F64)) st (ptr o) (ptr a) lo l) as (st' & R & V & F); try (rewrite Ha; reflexivity); auto.
      * rewrite Ha. cbn. now rewrite No.
      * rewrite Ha. cbn. now rewrite El, Na.
      * apply apart_same. assert (Q : Nat.min (length lo) (length l) = S n) by lia. change (apart 8 (ptr a) (Nat.min (length lo) (length l)) (ptr o) (Nat.min (length lo) (length l))). rewrite Q. replace (len o) with (S n) in D by lia. exact D.
      * exists st'. split; [exact R|]. split.
        -- intros i Hi. assert (Hn : i < Nat.min (length lo) (length l)) by lia. destruct (V i Hn) as (v & Sv & Ev). exists v. auto.
        -- intros p W. apply F. intros W'. apply W. cbn [esize_of]. assert (Q : Nat.min (length lo) (length l) = len o) by lia. rewrite <- Q. exact W'.
Qed.

(** ** Errors *)
Open Scope R_scope.
Lemma product_nonzero d (l : list (val d * val d)) : product (nonzero l) = product l /\ product_abs (nonzero l) = product_abs l /\ (length (nonzero l) <= length l)%nat.
Proof.
  unfold product, product_abs, nonzero. induction l as [|[x y] l (IH1 & IH2 & IH3)]; [split; [|split]; reflexivity|]. cbn [filter fst].
  destruct x as [s|s| |s m e B]; cbn [fold_right fst snd length]; rewrite ?IH1, ?IH2; try (split; [reflexivity|split; [reflexivity|lia]]).
  cbn [real B2R]. rewrite Rmult_0_l, Rabs_R0, !Rplus_0_l. split; [reflexivity|]. split; [reflexivity|]. lia.
Qed.
Lemma dbound_mono d n m a : (n <= m)%nat -> 0 <= a -> dbound d n a <= dbound d m a.
Proof.
  intros H Pa. unfold dbound. pose proof (gamma_le d n m H) as G. pose proof (gamma_pos d n) as Gn. pose proof (half_tiny_pos d) as Hh. pose proof (pos_INR n) as In. pose proof (le_INR n m H) as I.
  apply Rplus_le_compat; [apply Rmult_le_compat_r; lra|]. apply Rmult_le_compat_r; [lra|]. apply Rmult_le_compat; lra.
Qed.
Lemma used_error d bc v (l : list (val d * val d)) : dot_of (floats d) v (used bc l) -> finite v ->
  Forall (fun p => finite (fst p) /\ finite (snd p)) (used bc l) /\
  Rabs (real v - product l) <= gamma d (length l) * product_abs l + INR (length l) * (1 + gamma d (length l)) * half_tiny d.
Proof.
  intros H F. destruct (dot_error d v _ H F) as (Fl & E). split; [exact Fl|]. unfold dbound in E.
  assert (P : product (used bc l) = product l /\ product_abs (used bc l) = product_abs l /\ (length (used bc l) <= length l)%nat).
  { unfold used. destruct (Nat.eqb bc 1); [auto|apply product_nonzero]. }
  destruct P as (P1 & P2 & P3). rewrite P1, P2 in E. eapply Rle_trans; [exact E|]. pose proof (product_abs_pos d l) as Pl.
  exact (dbound_mono d _ _ _ P3 Pl).
Qed.
Lemma nonzero_forall d (P : val d * val d -> Prop) bc l : Forall P l -> Forall P (used bc l).
Proof.
  intros H. unfold used. destruct (Nat.eqb bc 1); [exact H|]. unfold nonzero. apply Forall_forall. intros x Hx. apply filter_In in Hx. rewrite Forall_forall in H. apply H. tauto.
Qed.
Lemma used_finite d bc v (l : list (val d * val d)) : dot_of (floats d) v (used bc l) -> Forall (fun p => finite (fst p) /\ finite (snd p)) l ->
  (1 + gamma d (length l)) * product_abs l + INR (length l) * (1 + gamma d (length l)) * half_tiny d <= largest d -> finite v.
Proof.
  intros H F B. apply (dot_finite d v (used bc l) H); [now apply nonzero_forall|]. eapply Rle_trans; [|exact B].
  assert (P : product_abs (used bc l) = product_abs l /\ (length (used bc l) <= length l)%nat).
  { unfold used. destruct (Nat.eqb bc 1); [auto|]. destruct (product_nonzero d l) as (_ & P). exact P. }
  destruct P as (P2 & P3). rewrite P2. exact (size_mono d _ _ _ P3 (product_abs_pos d l)).
Qed.

(** ** Weaker claims about the result *)
Lemma mul_row_mono A e h eq z c bc row b ct k : forall l m (Q P : (Z -> option (lane A)) -> Prop), mul_row A e h eq z c bc row b ct l k m Q -> (forall m', Q m' -> P m') -> mul_row A e h eq z c bc row b ct l k m P.
Proof.
  induction k as [|k IH]; intros l m Q P H K; cbn [mul_row] in *; [auto|]. destruct H as (v & G & H). exists v. split; [exact G|]. destruct (z v); [exact (IH _ _ _ _ H K)|].
  destruct H as (x & X & H). exists x. split; [exact X|]. eapply call_mono; [exact H|]. cbv beta. intros m' Hm. exact (IH _ _ _ _ Hm K).
Qed.
Lemma mul_rows_mono A e h eq z c ac bc a b o k : forall i m (Q P : (Z -> option (lane A)) -> Prop), mul_rows A e h eq z c ac bc a b o i k m Q -> (forall m', Q m' -> P m') -> mul_rows A e h eq z c ac bc a b o i k m P.
Proof.
  induction k as [|k IH]; intros i m Q P H K; cbn [mul_rows] in *; [auto|]. destruct H as (ct & row & S1 & S2 & H). exists ct, row. split; [exact S1|]. split; [exact S2|].
  eapply mul_row_mono; [exact H|]. cbv beta. intros m' Hm. exact (IH _ _ _ _ Hm K).
Qed.
Lemma mul_vec_mono A e h c dc a b o k : forall from i m (Q P : (Z -> option (lane A)) -> Prop), mul_vec A e h c dc from a b o i k m Q -> (forall m', Q m' -> P m') -> mul_vec A e h c dc from a b o i k m P.
Proof.
  induction k as [|k IH]; intros from i m Q P H K; cbn [mul_vec] in *; [auto|]. destruct H as (x & X & H). exists x. split; [exact X|].
  intros st E. destruct (H st E) as (st' & v & R & V & m1 & W & G). exists st', v. split; [exact R|]. split; [exact V|]. exists m1. split; [exact W|]. exact (IH _ _ _ _ _ G K).
Qed.
Lemma MatMul_mono d c rows cols bc a b o m (Q P : (Z -> option (val d)) -> Prop) : MatMul d c rows cols bc a b o m Q -> (forall m', Q m' -> P m') -> MatMul d c rows cols bc a b o m P.
Proof.
  unfold MatMul. destruct (Nat.eqb bc 1); [|apply mul_rows_mono]. destruct d; [apply mul_vec_mono|apply call_mono].
Qed.
