(** * Where Backward leaves an operand without a gradient, or hands out one of the wrong shape *)
From Coq Require Import Reals List Arith Bool ZArith Lia Lra.
From Verif Require Import DenseModel DenseSpec ArithModel ArithSpec GradModel GradSpec GradLemmas DenseProofs DenseProofs2 GradProofs GradProofs6 GradProofs8 GradProofs11.
Import ListNotations.
Open Scope R_scope.

Lemma guard_some {T} b (m : option T) v : guard b m = Some v -> m = Some v.
Proof. destruct b; [auto|discriminate]. Qed.
Lemma when_only b k m calls n : when b k m = Some calls -> In n (map fst calls) -> n = k.
Proof. unfold when. destruct b; [destruct m; cbn|]; intros E; [injection E as <-|discriminate|injection E as <-]; cbn; intuition. Qed.

Lemma unary1_starves f df req x a : req 1%nat = true -> ~ hands_one_each (unary1_fn f df) req [x; a].
Proof.
  intros Hr. apply (starved _ req [x; a] 1); cbn; auto.
  intros gy calls H Hin. apply guard_some in H. apply (when_only _ _ _ _ _ H) in Hin. discriminate.
Qed.
Lemma unary2_starves f df req x a b k : (k = 1 \/ k = 2)%nat -> req k = true -> ~ hands_one_each (unary2_fn f df) req [x; a; b].
Proof.
  intros Hk Hr. apply (starved _ req [x; a; b] k); cbn; [lia|auto|].
  intros gy calls H Hin. apply guard_some in H. apply (when_only _ _ _ _ _ H) in Hin. lia.
Qed.

(** Copy hands its gradient on although the operand does not require one *)
Lemma copy_ignores req x : wf x -> req 0%nat = false -> ~ hands_one_each copy_fn req [x].
Proof.
  intros W Hr (y & Hy & H). injection Hy as <-. destruct (H x W) as (calls & Hc & Hn); [split; reflexivity|].
  cbn in Hc. rewrite (same_dims_fits x x (rows x) (cols x)) in Hc by (repeat split; auto). injection Hc as <-. specialize (Hn 0%nat). rewrite Hr in Hn. discriminate.
Qed.

(** Concat of row vectors: the gradients are columns *)
Lemma hand_out_in req (gs : list mat) : forall k i g, nth_error gs i = Some g -> req (k + i)%nat = true -> In ((k + i)%nat, g) (hand_out k req gs).
Proof.
  induction gs as [|g0 gs IH]; intros k i g H Hr; [destruct i; discriminate|]. cbn [hand_out]. apply in_or_app. destruct i as [|i].
  - left. injection H as ->. rewrite Nat.add_0_r in *. rewrite Hr. left. reflexivity.
  - right. replace (k + S i)%nat with (S k + i)%nat in * by lia. apply IH; auto.
Qed.
Lemma pieces_map_len {A B} (f : list A -> B) : forall sizes l, length (map f (pieces l sizes)) = length sizes.
Proof. intros sizes l. rewrite map_length. revert l. induction sizes as [|n sizes IH]; intros l; [reflexivity|]. cbn. now rewrite IH. Qed.
Lemma concat_shape_wrong req (xs : list mat) k x : forallb is_vector xs = true -> nth_error xs k = Some x -> req k = true -> cols x <> 1%nat ->
  ~ right_shapes concat_fn req xs.
Proof.
  intros HV Hk Hr Hc H. destruct (concat_fwd xs HV) as (m & E & Hm & Hd). pose proof (fits_len _ _ _ Hm) as L. rewrite Nat.mul_1_r in L.
  assert (Hf : fwd concat_fn xs = Some m). { cbn. destruct xs; [destruct k; discriminate|exact E]. }
  destruct Hm as (Hw & Hmr & Hmc).
  destruct (split_spec m (map (fun x : mat => Z.of_nat (length (data x))) xs) Hw) as (S1 & S2).
  destruct (proj2 S2) as (ms & Es).
  { split; [unfold is_vector; rewrite Hmc; apply orb_true_r|]. split; [apply Forall_forall; intros z Hz; apply in_map_iff in Hz as (a & <- & _); lia|].
    rewrite sum_sizes. unfold wf in Hw. rewrite <- Hw, L. lia. }
  assert (Hb : bwd concat_fn xs req m = Some (hand_out 0 req ms)).
  { cbn [bwd concat_fn]. rewrite sizes_len, L, Nat.eqb_refl. cbn [guard].
    transitivity (bind (Some ms) (fun gs => Some (hand_out 0 req gs))); [exact (f_equal (fun o => bind o (fun gs => Some (hand_out 0 req gs))) Es)|reflexivity]. }
  pose proof (S1 ms Es) as Hms.
  assert (Hlen : length ms = length xs) by (rewrite Hms; rewrite pieces_map_len, !map_length; reflexivity).
  destruct (nth_error ms k) as [g|] eqn:Eg; [|apply nth_error_None in Eg; assert (k < length xs)%nat by (apply nth_error_Some; congruence); lia].
  destruct (H m Hf m Hw (conj eq_refl eq_refl) _ k g Hb (hand_out_in req ms 0 k g Eg Hr)) as (_ & x' & Ex & _ & E2). rewrite Ex in Hk. injection Hk as ->.
  apply Hc. rewrite <- E2. rewrite Hms in Eg. apply nth_error_In, in_map_iff in Eg as (l & <- & _). reflexivity.
Qed.

(** AppendRows of column vectors: the gradients are rows *)
Lemma append_shape_wrong req (x : mat) (vs : list mat) k v : wf x -> (0 < rows x)%nat -> (0 < cols x)%nat ->
  List.Forall (fun v => wf v /\ is_vector v = true /\ length (data v) = cols x) vs ->
  nth_error vs k = Some v -> req (S k) = true -> rows v <> 1%nat -> ~ right_shapes append_rows_fn req (x :: vs).
Proof.
  intros Hw Hx0 Hc0 HV Hk Hr Hv H. destruct (append_rows_spec (T := R) 0 x vs Hw) as (A1 & A2).
  destruct (append_rows 0 x vs) as [m|] eqn:E.
  2: { exfalso. apply (proj1 A2 eq_refl). revert HV. apply Forall_impl. tauto. }
  destruct (A1 m eq_refl) as (M1 & M2 & M3 & M4).
  assert (Hm : fits m (rows x + length vs) (cols x)) by (repeat split; auto).
  assert (Hf : fwd append_rows_fn (x :: vs) = Some m) by exact E.
  assert (Hb : exists calls, bwd append_rows_fn (x :: vs) req m = Some calls /\
     exists l, In (S k, mkDense 1 (cols x) l) calls).
  { cbn [bwd append_rows_fn]. assert (rows m = (rows x + length vs)%nat) as -> by apply Hm. rewrite Nat.eqb_refl. cbn [guard].
    destruct (submatrix m 0 0 (Z.of_nat (rows x)) (Z.of_nat (cols x))) as [s|] eqn:Es.
    2: { exfalso. revert Es. rewrite submatrix_panics. intros HN. apply HN. destruct Hm as (_ & G2 & G3). unfold slice_ok. rewrite G2, G3. lia. }
    set (gs := map (fun i => mkDense 1 (cols x) (firstn (cols x) (skipn ((rows x + i) * cols x) (data m)))) (seq 0 (length vs))).
    rewrite (for_each_ok req _ vs 1 gs).
    - unfold when, both. exists ((if req 0%nat then [(0%nat, s)] else []) ++ hand_out 1 req gs). split; [destruct (req 0%nat); reflexivity|].
      exists (firstn (cols x) (skipn ((rows x + k) * cols x) (data m))). apply in_or_app. right. apply (hand_out_in req gs 1 k); [|exact Hr]. unfold gs. rewrite (map_nth_error _ _ _ (d := k)); [reflexivity|].
      rewrite (nth_error_nth' _ 0%nat), seq_nth; [reflexivity| |rewrite seq_length]; apply nth_error_Some; congruence.
    - unfold gs. rewrite map_length. apply seq_length.
    - intros i w g Hw1 Hg1. assert (Hi : (i < length vs)%nat) by (apply nth_error_Some; congruence).
      replace (rows x + (1 + i - 1))%nat with (rows x + i)%nat by lia. rewrite (extract_row_data m (rows x + length vs) (cols x)) by (auto; lia).
      unfold gs in Hg1. rewrite (map_nth_error _ _ _ (d := i)) in Hg1; [auto|]. rewrite (nth_error_nth' _ 0%nat), seq_nth; rewrite ?seq_length; auto. }
  destruct Hb as (calls & Hb & l & Hin).
  destruct (H m Hf m (proj1 Hm) (conj eq_refl eq_refl) _ _ _ Hb Hin) as (_ & x' & Ex & E1 & _). cbn in Ex. rewrite Ex in Hk. injection Hk as ->. cbn in E1. congruence.
Qed.
