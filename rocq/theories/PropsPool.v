(** * C17, C09, C16: max pooling *)
From Coq Require Import Reals List Arith Bool ZArith Lia Lra.
From Verif Require Import DenseModel DenseSpec DenseLemmas ArithModel GradModel GradSpec GradLemmas GradProofs GradProofs6 GradProofs9 OpsModel OpsProofs4 PoolModel PoolProofs.
Import ListNotations.
Open Scope R_scope.

(** The windows of a (r*p)×(c*p) matrix are its r×c blocks of p×p elements; window (i, j) has the elements (i*p+a, j*p+b). *)

(** Every output of a square max pooling is the largest element of its window, if the window has an element above
    SmallestNonzeroFloat64.  Missing: the other windows (false, C17_max_pooling_refuted) and non-square pools (false, C17_max_pooling_wide, C17_max_pooling_tall). *)
Theorem C17_max_pooling_partial : forall p r c x, p <> 0%nat -> fits x (r * p) (c * p) ->
  (forall i j, (i < r)%nat -> (j < c)%nat -> exists a b, (a < p)%nat /\ (b < p)%nat /\ powerRZ 2 (-1074) < rget x (i * p + a) (j * p + b)) ->
  exists y, fwd (max_pooling_fn p p) [x] = Some y /\ fits y r c /\
    forall i j, (i < r)%nat -> (j < c)%nat ->
      (forall a b, (a < p)%nat -> (b < p)%nat -> rget x (i * p + a) (j * p + b) <= rget y i j) /\
      exists a b, (a < p)%nat /\ (b < p)%nat /\ rget y i j = rget x (i * p + a) (j * p + b).
Proof.
  intros p r c x Hp Hx H. destruct (pool_out_square r c p Hp x Hx) as (y & E & Hy & Hv). exists y. split; [exact E|]. split; [exact Hy|].
  intros i j Hi Hj. rewrite (rget_flat y r c) by auto. rewrite Hv by (apply idx_lt; auto). unfold best_k. rewrite idx_div, idx_mod by auto.
  destruct (pick_spec (fun q => rget x (fst q) (snd q)) (window p p i j) smallest_nonzero (0%nat, 0%nat)) as (A & B & D). fold (best x p i j) in A, B, D.
  assert (A' : forall a b, (a < p)%nat -> (b < p)%nat -> rget x (i * p + a) (j * p + b) <= fst (best x p i j)).
  { intros a b Ha Hb. apply (A (i * p + a, j * p + b)%nat). apply in_window. cbn. lia. }
  split; [exact A'|]. destruct D as [D|(D1 & D2 & _)].
  - exfalso. destruct (H i j Hi Hj) as (a & b & Ha & Hb & Hab). specialize (A' a b Ha Hb). rewrite D in A'. cbn [fst] in A'. unfold smallest_nonzero in A'. lra.
  - apply in_window in D1. exists (fst (snd (best x p i j)) - i * p)%nat, (snd (snd (best x p i j)) - j * p)%nat. split; [lia|]. split; [lia|].
    rewrite D2. f_equal; lia.
Qed.
Print Assumptions C17_max_pooling_partial.

(** If every window has one largest element, above SmallestNonzeroFloat64, Backward is the adjoint of the derivative. *)
Theorem C17_max_pooling_gradient : forall p r c req x (ai aj : nat -> nat -> nat), p <> 0%nat -> fits x (r * p) (c * p) ->
  (forall i j, (i < r)%nat -> (j < c)%nat -> (ai i j < p)%nat /\ (aj i j < p)%nat /\ powerRZ 2 (-1074) < rget x (i * p + ai i j) (j * p + aj i j) /\
     forall a b, (a < p)%nat -> (b < p)%nat -> (a, b) <> (ai i j, aj i j) -> rget x (i * p + a) (j * p + b) < rget x (i * p + ai i j) (j * p + aj i j)) ->
  correct (max_pooling_fn p p) req [x].
Proof.
  intros p r c req x ai aj Hp Hx H. apply (pool_correct r c p Hp req x (fun i j => (i * p + ai i j, j * p + aj i j)%nat)); auto.
  intros i j Hi Hj. destruct (H i j Hi Hj) as (A & B & D & F). split; [|split].
  - apply in_window. cbn. lia.
  - exact D.
  - intros (q1, q2) Hq Hne. apply in_window in Hq. cbn [fst snd] in *. replace q1 with (i * p + (q1 - i * p))%nat by lia. replace q2 with (j * p + (q2 - j * p))%nat by lia.
    apply F; try lia. intros E. injection E as E1 E2. apply Hne. f_equal; lia.
Qed.
Print Assumptions C17_max_pooling_gradient.
Theorem C09_max_pooling : forall p r c req x, p <> 0%nat -> fits x (r * p) (c * p) -> hands_one_each (max_pooling_fn p p) req [x].
Proof. intros p r c req x Hp Hx. apply (pool_shapes r c p Hp req x Hx). Qed.
Print Assumptions C09_max_pooling.
Theorem C16_max_pooling : forall p r c req x, p <> 0%nat -> fits x (r * p) (c * p) -> right_shapes (max_pooling_fn p p) req [x].
Proof. intros p r c req x Hp Hx. apply (pool_shapes r c p Hp req x Hx). Qed.
Print Assumptions C16_max_pooling.

(** On a matrix without an element above SmallestNonzeroFloat64 (all zero or negative, say) every output is SmallestNonzeroFloat64,
    which is larger than every element of a negative window. *)
Theorem C17_max_pooling_refuted : forall p r c x, p <> 0%nat -> fits x (r * p) (c * p) ->
  (forall i j, (i < r * p)%nat -> (j < c * p)%nat -> rget x i j <= 0) ->
  exists y, fwd (max_pooling_fn p p) [x] = Some y /\ fits y r c /\
    forall i j, (i < r)%nat -> (j < c)%nat -> rget y i j = powerRZ 2 (-1074) /\
      forall a b, (a < p)%nat -> (b < p)%nat -> rget x (i * p + a) (j * p + b) < rget y i j.
Proof.
  intros p r c x Hp Hx H. destruct (pool_out_square r c p Hp x Hx) as (y & E & Hy & Hv). exists y. split; [exact E|]. split; [exact Hy|].
  intros i j Hi Hj. rewrite (rget_flat y r c) by auto. rewrite Hv by (apply idx_lt; auto). unfold best_k. rewrite idx_div, idx_mod by auto.
  assert (P : 0 < powerRZ 2 (-1074)) by (apply powerRZ_lt; lra).
  destruct (pick_spec (fun q => rget x (fst q) (snd q)) (window p p i j) smallest_nonzero (0%nat, 0%nat)) as (A & B & D). fold (best x p i j) in A, B, D.
  assert (E1 : fst (best x p i j) = powerRZ 2 (-1074)).
  { destruct D as [->|(D1 & D2 & D3)]; [reflexivity|]. exfalso. apply in_window in D1.
    rewrite D2 in D3. unfold smallest_nonzero in D3. specialize (H (fst (snd (best x p i j))) (snd (snd (best x p i j))) ltac:(nia) ltac:(nia)). lra. }
  split; [exact E1|]. intros a b Ha Hb. rewrite E1. specialize (H (i * p + a)%nat (j * p + b)%nat ltac:(nia) ltac:(nia)). lra.
Qed.
Print Assumptions C17_max_pooling_refuted.

Lemma fold_none {A S} (f : S -> A -> option S) l a : In a l -> (forall s, f s a = None) -> forall s, fold_opt f l s = None.
Proof.
  intros Ha Hf. induction l as [|b l IH]; [destruct Ha|]. intros s. cbn [fold_opt]. destruct Ha as [->|Ha]; [rewrite Hf; reflexivity|].
  destruct (f s b) as [s'|]; [|reflexivity]. cbn [bind]. auto.
Qed.
(** A pool with more rows than columns reads past the end of the rows: Forward panics on every non-empty matrix. *)
Theorem C17_max_pooling_tall : forall pr pc r c x, (0 < pc < pr)%nat -> (0 < r)%nat -> (0 < c)%nat -> fits x (r * pr) (c * pc) ->
  fwd (max_pooling_fn pr pc) [x] = None.
Proof.
  intros pr pc r c x Hp Hr Hc Hx. cbn [fwd max_pooling_fn un]. unfold pool_out, pool_all.
  destruct (Nat.eqb_spec pr 0), (Nat.eqb_spec pc 0); try lia. cbn [orb]. pose proof Hx as (_ & E1 & E2). rewrite E1, E2, !Nat.mod_mul, !Nat.div_mul by lia. cbn [Nat.eqb andb].
  rewrite (each_none _ _ (0%nat, (c - 1)%nat)); [reflexivity| |].
  - apply in_prod; apply in_seq; lia.
  - cbn [fst snd]. unfold pool_scan. apply (fold_none _ _ 0%nat); [apply in_seq; lia|]. intros s.
    apply (fold_none _ _ (c * pc)%nat); [apply in_seq; nia|]. intros s'. unfold pool_step. rewrite (at2_out x (r * pr) (c * pc)) by (auto; lia). reflexivity.
Qed.
Print Assumptions C17_max_pooling_tall.
Lemma tiny_small : powerRZ 2 (-1074) < 1.
Proof.
  change (powerRZ 2 (-1074)) with (/ (2 ^ Pos.to_nat 1074)). generalize (Pos2Nat.is_pos 1074). generalize (Pos.to_nat 1074). intros n Hn.
  rewrite <- Rinv_1. assert (1 < 2 ^ n) by (apply Rlt_pow_R1; [lra|lia]). apply Rinv_lt_contravar; lra.
Qed.
(** A pool with fewer rows than columns ignores the last columns of its windows. *)
Theorem C17_max_pooling_wide : exists x y, fits x 1 2 /\ fwd (max_pooling_fn 1 2) [x] = Some y /\ rget y 0 0 = 1 /\ rget x 0 0 = 1 /\ rget x 0 1 = 2.
Proof.
  exists (mkDense 1 2 [1; 2]), (mkDense 1 1 [1]). split; [repeat split|]. split; [|repeat split].
  cbn. unfold pool_out, pool_all. cbn. unfold pool_scan. cbn. unfold pool_step. cbn [fst].
  change (at_ _ _) with (Some 1). cbn [bind]. rewrite Rltb_true; [reflexivity|]. apply tiny_small.
Qed.
Print Assumptions C17_max_pooling_wide.

(** Sizes that do not divide the matrix are refused (an error, or the panic of % for a zero size). *)
Theorem C17_max_pooling_sizes : forall pr pc x y, fwd (max_pooling_fn pr pc) [x] = Some y ->
  exists r c, (0 < pr)%nat /\ (0 < pc)%nat /\ rows x = (r * pr)%nat /\ cols x = (c * pc)%nat /\ rows y = r /\ cols y = c.
Proof.
  intros pr pc x y. cbn [fwd max_pooling_fn un]. unfold pool_out, pool_all. destruct (Nat.eqb_spec pr 0); [discriminate|]. destruct (Nat.eqb_spec pc 0); [discriminate|]. cbn [orb].
  destruct (Nat.eqb_spec (rows x mod pr) 0) as [E1|]; [|discriminate]. destruct (Nat.eqb_spec (cols x mod pc) 0) as [E2|]; [|discriminate]. cbn [andb].
  destruct (each _ _) as [st|]; [|discriminate]. cbn [bind]. intros [= <-]. exists (rows x / pr)%nat, (cols x / pc)%nat. cbn [rows cols].
  pose proof (Nat.div_mod (rows x) pr n). pose proof (Nat.div_mod (cols x) pc n0). repeat split; try lia; nia.
Qed.
Print Assumptions C17_max_pooling_sizes.

Example C17_max_pooling_case : exists x, fits x (1 * 2) (2 * 2) /\
  (forall i j, (i < 1)%nat -> (j < 2)%nat -> (1 - i < 2)%nat /\ (j < 2)%nat /\ powerRZ 2 (-1074) < rget x (i * 2 + (1 - i)) (j * 2 + j) /\
     forall a b, (a < 2)%nat -> (b < 2)%nat -> (a, b) <> (1 - i, j)%nat -> rget x (i * 2 + a) (j * 2 + b) < rget x (i * 2 + (1 - i)) (j * 2 + j)).
Proof.
  exists (mkDense 2 4 [-1; 2; 3; 4; 5; -6; 7; 8]). split; [repeat split|]. pose proof tiny_small as Ht; revert Ht; generalize (powerRZ 2 (-1074)) as t; intros t Ht.
  intros i j Hi Hj. assert (i = 0)%nat as -> by lia. split; [lia|]. split; [lia|].
  destruct j as [|[|j]]; [| |lia]; (split; [unfold rget, ArithSpec.get, elem; cbn; lra|]); intros a b Ha Hb Hne;
    (destruct a as [|[|a]]; [| |lia]); (destruct b as [|[|b]]; [| |lia]); try (exfalso; apply Hne; reflexivity); unfold rget, ArithSpec.get, elem; cbn; lra.
Qed.
