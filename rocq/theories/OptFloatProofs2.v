(** * Optimizers in floating point: bounded steps keep the weights bounded *)
From Coq Require Import ZArith Bool Lia List Arith Reals Lra Psatz.
From Flocq Require Import Core BinarySingleNaN Relative.
From Verif Require Import DenseModel DenseSpec ArithModel ArithSpec FloatModel FloatSpec NumModel NumSpec NumLemmas AsmFloatSpec AsmFloat OptFloatModel OptFloatSpec OptFloatNum OptFloatNum2 OptFloatNum3 OptFloatProofs OptFloatNum4.
Import ListNotations.
Local Open Scope R_scope.

Section Bounded.
Variable d : dtype.
Notation mat := (dense (val d)).
Notation U := (u d).
Notation h := (half_tiny d).
Notation get m i j := (get fzero m i j).

(** largest step with its errors *)
Definition full (s : R) : R := s * (1 + / 2 ^ 17) + / 2 ^ 110.
Lemma u_large : / 2 ^ 53 <= U.
Proof. destruct d; unfold u; lra. Qed.
Lemma u_bpow : U = bpow radix2 (- prec d).
Proof. rewrite u_eq, bpow_plus. change (bpow radix2 1) with 2. lra. Qed.
Lemma weight_bpow : weight_max d = bpow radix2 (emax d - 4).
Proof. unfold weight_max. destruct d; rewrite pow2; reflexivity. Qed.
Lemma room_power s B : 0 <= s -> room d s B -> exists k, B < bpow radix2 k <= 2 * B /\ (3 - emax d < k)%Z /\ (k + 1 < emax d)%Z /\ full s < bpow radix2 (k - prec d).
Proof.
  intros Hs ((H1 & H2) & H3). destruct (power_above B ltac:(lra)) as (k & Hk). exists k. split; [exact Hk|].
  assert (0 < k)%Z. { apply (lt_bpow radix2). change (bpow radix2 0) with 1. lra. }
  assert (k <= emax d - 3)%Z. { apply (le_bpow radix2). replace (emax d - 3)%Z with (1 + (emax d - 4))%Z by lia. rewrite bpow_plus. change (bpow radix2 1) with 2. rewrite <- weight_bpow. lra. }
  split; [destruct d; cbn in *; lia|]. split; [lia|]. unfold Zminus. rewrite bpow_plus, <- u_bpow. unfold full. pose proof u_large as HU.
  assert (U * B <= U * bpow radix2 k) by (apply Rmult_le_compat_l; lra). assert (U * 1 <= U * B) by (apply Rmult_le_compat_l; lra). lra.
Qed.

Section Steps.
Variables (St : Type) (unwrap : ostate d -> option St) (wrap : St -> ostate d) (fresh_state : mat -> St)
  (update : nat -> mat -> St -> mat -> option (mat * St)).
Hypothesis unwrap_wrap : forall s, unwrap (wrap s) = Some s.
Variables (g : nat -> mat) (x0 : mat) (r c : nat) (S B : R) (a t : nat -> R) (Inv : St -> Prop).
Hypothesis HS : 0 <= S.
Hypothesis HB : room d S B.
Hypothesis Ha : forall n, 0 <= a n <= S.
Hypothesis Hx0 : within d B r c x0.
Hypothesis Hfresh : Inv (fresh_state x0).
Hypothesis Hupdate : forall n s x, Inv s -> within d (2 * B) r c x ->
  exists delta s', update n (g n) s x = Some (delta, s') /\ Inv s' /\ shaped d delta r c /\ forall i j, (i < r)%nat -> (j < c)%nat ->
    finite (get delta i j) /\ Rabs (real (get delta i j)) <= full (a n + t n * Rabs (at_ d x i j)) /\
    Rabs (at_ d x i j - real (get delta i j)) <= Rabs (at_ d x i j) + full (a n).

Lemma full_le s s' : s <= s' -> full s <= full s'. Proof. unfold full. lra. Qed.
Lemma bounded_steps n : exists x x', successive d (fun n => optimize d St unwrap wrap fresh_state (update n)) g x0 n x x' /\
  within d (2 * B) r c x /\ within d (2 * B) r c x' /\
  forall i j, (i < r)%nat -> (j < c)%nat -> Rabs (at_ d x' i j - at_ d x i j) <= (1 + U) * full (a n + t n * Rabs (at_ d x i j)) + U * Rabs (at_ d x i j).
Proof.
  destruct (room_power S B HS HB) as (k & Hk & K1 & K2 & HD).
  assert (W : forall x, within d (bpow radix2 k) r c x -> within d (2 * B) r c x).
  { intros x (X1 & X2 & X3 & X4). split; [exact X1|]. split; [exact X2|]. split; [exact X3|]. intros i j Hi Hj. destruct (X4 i j Hi Hj). split; [auto|lra]. }
  apply (run_successive d St unwrap wrap fresh_state update unwrap_wrap g x0 (fun _ s x => Inv s /\ within d (bpow radix2 k) r c x)
    (fun n x x' => within d (2 * B) r c x /\ within d (2 * B) r c x' /\
       forall i j, (i < r)%nat -> (j < c)%nat -> Rabs (at_ d x' i j - at_ d x i j) <= (1 + U) * full (a n + t n * Rabs (at_ d x i j)) + U * Rabs (at_ d x i j))).
  - split; [exact Hfresh|]. destruct Hx0 as (X1 & X2 & X3 & X4). split; [exact X1|]. split; [exact X2|]. split; [exact X3|]. intros i j Hi Hj. destruct (X4 i j Hi Hj). split; [auto|lra].
  - clear n. intros n s x (HI & Hx). destruct (Hupdate n s x HI (W x Hx)) as (delta & s' & Eu & HI' & Sd & Hd).
    assert (Sx : shaped d x r c) by (destruct Hx as (X1 & X2 & X3 & _); repeat split; auto).
    destruct (sub_elems d x delta r c Sx Sd) as (x' & Es & (Sx' & Ex')). exists delta, s', x'. split; [exact Eu|]. split; [exact Es|].
    assert (M : forall i j, (i < r)%nat -> (j < c)%nat -> finite (get x' i j) /\ Rabs (real (get x' i j)) <= bpow radix2 k /\
      Rabs (at_ d x' i j - at_ d x i j) <= (1 + U) * full (a n + t n * Rabs (at_ d x i j)) + U * Rabs (at_ d x i j)).
    { intros i j Hi Hj. unfold at_ in *. rewrite (Ex' i j Hi Hj). destruct (Hd i j Hi Hj) as (Fd & Ld & Xd). destruct Hx as (_ & _ & _ & Hx). destruct (Hx i j Hi Hj) as (Fx & Lx).
      pose proof (full_le (a n) S ltac:(apply Ha)) as L1.
      apply (move_op d (get x i j) (get delta i j) k (full S) _ Fx Fd Ld); auto; [|unfold full; lra]. lra. }
    assert (Hx' : within d (bpow radix2 k) r c x').
    { destruct Sx' as (X1 & X2 & X3). split; [exact X1|]. split; [exact X2|]. split; [exact X3|]. intros i j Hi Hj. destruct (M i j Hi Hj) as (F & L & _). auto. }
    split; [split; assumption|]. split; [apply W, Hx|]. split; [apply W, Hx'|]. intros i j Hi Hj. apply (M i j Hi Hj).
Qed.
End Steps.

Lemma moved_plain s r c x x' : 0 <= s -> (forall i j, (i < r)%nat -> (j < c)%nat -> Rabs (at_ d x' i j - at_ d x i j) <= (1 + U) * full (s + 0 * Rabs (at_ d x i j)) + U * Rabs (at_ d x i j)) ->
  moved_at_most d s r c x x'.
Proof.
  intros Hs H i j Hi Hj. eapply Rle_trans; [apply (H i j Hi Hj)|]. rewrite Rmult_0_l, Rplus_0_r. unfold full. pose proof (u_small d) as HU. set (uu := U) in *. clearbody uu.
  set (z := Rabs _). clearbody z. assert (s * ((1 + uu) * (1 + / 2 ^ 17)) <= s * (1 + / 2 ^ 16)) by (apply Rmult_le_compat_l; lra). assert ((1 + uu) * / 2 ^ 110 <= / 2 ^ 100) by lra. lra.
Qed.
Lemma moved_with_decay s t r c x x' : 0 <= s -> 0 <= t -> (forall i j, (i < r)%nat -> (j < c)%nat -> Rabs (at_ d x' i j - at_ d x i j) <= (1 + U) * full (s + (t + / 2 ^ 100) * Rabs (at_ d x i j)) + U * Rabs (at_ d x i j)) ->
  moved_decayed d s t r c x x'.
Proof.
  intros Hs Ht H i j Hi Hj. eapply Rle_trans; [apply (H i j Hi Hj)|]. unfold full. pose proof (u_small d) as HU. pose proof u_large as HL. set (uu := U) in *. clearbody uu.
  set (z := Rabs _). assert (Hz : 0 <= z) by apply Rabs_pos. clearbody z.
  assert (E1 : (s + t * z) * ((1 + uu) * (1 + / 2 ^ 17)) <= (s + t * z) * (1 + / 2 ^ 16)). { apply Rmult_le_compat_l; [apply Rplus_le_le_0_compat; [lra|apply Rmult_le_pos; lra]|lra]. }
  assert (E2 : (1 + uu) * / 2 ^ 110 <= / 2 ^ 100) by lra.
  assert (E3 : z * ((1 + uu) * (1 + / 2 ^ 17) * / 2 ^ 100) <= z * uu) by (apply Rmult_le_compat_l; lra). lra.
Qed.
End Bounded.
