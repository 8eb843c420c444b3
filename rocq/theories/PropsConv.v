(** * Properties of convolution *)
From Coq Require Import Reals List Arith Bool ZArith Lia Lra.
From Verif Require Import DenseModel DenseSpec ArithModel GradModel GradSpec GradLemmas GradProofs2 OpsModel OpsSpec OpsLemmas AttSpec AttProofs ConvModel ConvSpec ConvProofs ConvProofs2.
Import ListNotations.
Open Scope nat_scope.

(** ** C44 *)
Lemma scalar_entry x : fits x 1 1 -> x = scalar (entry x 0).
Proof. intros F. rewrite (fits_scalar x F) at 1. f_equal. apply (rget_vec 1); [exact F|lia]. Qed.
(** Conv1D: n steps of the stride lead from the kernel's width to the input's; output i is the kernel times the window at i strides. *)
Theorem C44_conv1d : forall w x stride n, wf x -> wf w -> 0 < rows w -> 0 < cols w -> 0 < stride -> rows x = rows w -> cols x = cols w + n * stride ->
  conv1d w x (Z.of_nat stride) = Some (vec (S n) (fun i => at_window w x 0 (i * stride))).
Proof. intros w x s n Wx Ww Hr Hc Hs Er Ec. rewrite (conv1d_steps w x (Z.of_nat s) Wx Ww Hr Hc n) by lia. now rewrite Nat2Z.id. Qed.
Print Assumptions C44_conv1d.
Theorem C44_conv1d_panics : forall w x stride, wf x -> wf w -> 0 < rows w -> 0 < cols w ->
  conv1d w x stride = None <-> ~ (rows x = rows w /\ steps_to (cols w) (cols x) stride).
Proof. intros w x stride Wx Ww Hr Hc. now apply conv1d_panics. Qed.
Print Assumptions C44_conv1d_panics.
(** Conv2D *)
Theorem C44_conv2d : forall w x xs ys n k, wf x -> wf w -> 0 < rows w -> 0 < cols w -> 0 < xs -> 0 < ys ->
  rows x = rows w + n * xs -> cols x = cols w + k * ys ->
  exists y, conv2d w x (Z.of_nat xs) (Z.of_nat ys) = Some y /\ elems y (S n) (S k) (fun i j => at_window w x (i * xs) (j * ys)).
Proof.
  intros w x xs ys n k Wx Ww Hr Hc Hx Hy Er Ec. destruct (conv2d_steps w x (Z.of_nat xs) (Z.of_nat ys) Wx Ww Hr Hc n k) as (y & E & V); try lia.
  exists y. rewrite !Nat2Z.id in V. auto.
Qed.
Print Assumptions C44_conv2d.
Theorem C44_conv2d_panics : forall w x xs ys, wf x -> wf w -> 0 < rows w -> 0 < cols w ->
  conv2d w x xs ys = None <-> ~ (steps_to (rows w) (rows x) xs /\ steps_to (cols w) (cols x) ys).
Proof. intros w x xs ys Wx Ww Hr Hc. now apply conv2d_panics. Qed.
Print Assumptions C44_conv2d_panics.

(** The one-dimensional model: output channel o is the activation of the sum, over the inputs the mask
    lets through, of the convolution with kernel o * inputs + i, plus that kernel's bias; it panics if no input is let through. *)
Theorem C44_model1d : forall act mask k b xs inputs o kr kc n stride, 0 < kr -> 0 < kc -> 0 < stride -> mask_fits mask (length xs) ->
  List.Forall (fun w => fits w kr kc) k -> List.Forall (fun s => fits s 1 1) b -> length b = length k -> List.Forall (fun x => fits x kr (kc + n * stride)) xs ->
  length xs = inputs -> S o * inputs <= length k ->
  conv_channel (fun w x => conv1d w x (Z.of_nat stride)) act false inputs mask k b xs o =
  if existsb (passes mask) (seq 0 inputs)
  then act (vec (S n) (fun p => over_channels mask inputs (fun i => at_window (kth k (o * inputs + i)) (kth xs i) 0 (p * stride) + entry (kth b (o * inputs + i)) 0)%R))
  else None.
Proof.
  intros act mask k b xs inputs o kr kc n stride Hr Hc Hs Hm Fk Fb Lb Fx Lx Lk. subst inputs. rewrite vec_flat. rewrite Forall_forall in Fk, Fb, Fx. set (m := length xs) in *.
  apply (channel_value _ act m mask k b xs o (S n) 1 (fun i p => at_window (kth k (o * m + i)) (kth xs i) 0 (p * stride)) (fun i => entry (kth b (o * m + i)) 0)); [auto|].
  intros j Hj _. exists (kth k (o * m + j)). assert (Hjk : o * m + j < length k) by (fold m in Hj; nia). split; [now apply nth_error_nth'|]. split.
  - destruct (Fk (kth k (o * m + j))) as (W & R & C); [now apply nth_In|]. destruct (Fx (kth xs j)) as (W' & R' & C'); [now apply nth_In|].
    rewrite (C44_conv1d _ _ stride n) by (auto; lia). now rewrite vec_flat.
  - rewrite (nth_error_nth' b (mkDense 0 0 [])) by lia. f_equal. fold (kth b (o * m + j)). apply (scalar_entry (kth b (o * m + j))). apply Fb, nth_In. lia.
Qed.
Print Assumptions C44_model1d.
Theorem C44_depthwise1d : forall act mask k b xs inputs o kr kc n stride, 0 < kr -> 0 < kc -> 0 < stride ->
  List.Forall (fun w => fits w kr kc) k -> List.Forall (fun s => fits s 1 1) b -> length b = length k -> List.Forall (fun x => fits x kr (kc + n * stride)) xs ->
  o < length k -> o < length xs ->
  conv_channel (fun w x => conv1d w x (Z.of_nat stride)) act true inputs mask k b xs o =
  act (vec (S n) (fun p => at_window (kth k o) (kth xs o) 0 (p * stride) + entry (kth b o) 0)%R).
Proof.
  intros act mask k b xs inputs o kr kc n stride Hr Hc Hs Fk Fb Lb Fx Lk Lx. rewrite vec_flat. rewrite Forall_forall in Fk, Fb, Fx.
  apply (depthwise_value _ act inputs mask k b xs o (S n) 1 (kth k o) (fun p => at_window (kth k o) (kth xs o) 0 (p * stride))); [now apply nth_error_nth'|auto| |].
  - destruct (Fk (kth k o)) as (W & R & C); [now apply nth_In|]. destruct (Fx (kth xs o)) as (W' & R' & C'); [now apply nth_In|]. rewrite (C44_conv1d _ _ stride n) by (auto; lia). now rewrite vec_flat.
  - rewrite (nth_error_nth' b (mkDense 0 0 [])) by lia. f_equal. apply (scalar_entry (kth b o)). apply Fb, nth_In. lia.
Qed.
Print Assumptions C44_depthwise1d.
(** The two-dimensional model *)
Theorem C44_model2d : forall act mask k b xs inputs o kr kc n1 s1 n2 s2, 0 < kr -> 0 < kc -> 0 < s1 -> 0 < s2 -> mask_fits mask (length xs) ->
  List.Forall (fun w => fits w kr kc) k -> List.Forall (fun s => fits s 1 1) b -> length b = length k -> List.Forall (fun x => fits x (kr + n1 * s1) (kc + n2 * s2)) xs ->
  length xs = inputs -> S o * inputs <= length k -> existsb (passes mask) (seq 0 inputs) = true ->
  exists y, elems y (S n1) (S n2) (fun p q => over_channels mask inputs (fun i => at_window (kth k (o * inputs + i)) (kth xs i) (p * s1) (q * s2) + entry (kth b (o * inputs + i)) 0)%R) /\
    conv_channel (fun w x => conv2d w x (Z.of_nat s1) (Z.of_nat s2)) act false inputs mask k b xs o = act y.
Proof.
  intros act mask k b xs inputs o kr kc n1 s1 n2 s2 Hr Hc Hs1 Hs2 Hm Fk Fb Lb Fx Lx Lk Some1. subst inputs. rewrite Forall_forall in Fk, Fb, Fx. set (m := length xs) in *.
  set (f := fun i p => at_window (kth k (o * m + i)) (kth xs i) (p / S n2 * s1) (p mod S n2 * s2)).
  eexists. split; cycle 1.
  - rewrite (channel_value _ act m mask k b xs o (S n1) (S n2) f (fun i => entry (kth b (o * m + i)) 0)); [fold m; rewrite Some1; reflexivity|auto|].
    intros j Hj _. exists (kth k (o * m + j)). assert (Hjk : o * m + j < length k) by (fold m in Hj; nia). split; [now apply nth_error_nth'|]. split.
    + destruct (Fk (kth k (o * m + j))) as (W & R & C); [now apply nth_In|]. destruct (Fx (kth xs j)) as (W' & R' & C'); [now apply nth_In|].
      destruct (C44_conv2d (kth k (o * m + j)) (kth xs j) s1 s2 n1 n2) as (y & E & V); auto; try lia. rewrite E. f_equal. apply (elems_flat _ _ _ _ _ V). intros p q Hp Hq. unfold f.
      replace (p * S n2 + q) with (q + p * S n2) by lia. rewrite Nat.div_add, Nat.mod_add, Nat.div_small, Nat.mod_small by lia. reflexivity.
    + rewrite (nth_error_nth' b (mkDense 0 0 [])) by lia. f_equal. apply (scalar_entry (kth b (o * m + j))). apply Fb, nth_In. lia.
  - fold m. match goal with |- elems (flat ?r ?c ?g) _ _ _ => destruct (flat_fits r c g) as (? & ? & ?) end. repeat split; auto. intros p q Hp Hq. rewrite flat_rget' by auto.
    unfold over_channels. apply Rsum_ext. intros i Hi. unfold f. replace (p * S n2 + q) with (q + p * S n2) by lia. rewrite Nat.div_add, Nat.mod_add, Nat.div_small, Nat.mod_small by lia. reflexivity.
Qed.
Print Assumptions C44_model2d.
(** Forward gives one output per output channel, in order, and panics if any channel does. *)
Theorem C44_forward : forall conv act depthwise inputs outputs mask k b xs ys, conv_forward conv act depthwise inputs outputs mask k b xs = Some ys ->
  length ys = outputs /\ forall o, o < outputs -> nth_error ys o = conv_channel conv act depthwise inputs mask k b xs o.
Proof. intros conv act depthwise inputs outputs mask k b xs ys E. now apply each_forward. Qed.
Print Assumptions C44_forward.
(** conv1x1 *)
Theorem C44_conv1x1 : forall wide w b n c xs, fits w n (length xs) -> is_vec n b -> xs <> [] -> List.Forall (is_vec c) xs ->
  conv1x1 wide w b n xs = Some (map (fun o => vec c (fun j => Rsum (length xs) (fun i => rget w o i * entry (kth xs i) j) + entry b o)%R) (seq 0 n)).
Proof. exact conv1x1_value. Qed.
Print Assumptions C44_conv1x1.

(** a 1x2 kernel over 1x4 with stride 2, and with the stride 3 that does not fit *)
Example C44_case : let w := mkDense 1 2 [1%R; 2%R] in let x := mkDense 1 4 [1%R; 10%R; 100%R; 1000%R] in
  conv1d w x 2 = Some (column [21%R; 2100%R]) /\ conv1d w x 3 = None.
Proof.
  cbv zeta. set (w := mkDense 1 2 [1%R; 2%R]). set (x := mkDense 1 4 [1%R; 10%R; 100%R; 1000%R]). split.
  - change 2%Z with (Z.of_nat 2). rewrite (C44_conv1d w x 2 1) by (cbn; lia || reflexivity). unfold vec. cbn [map seq]. unfold at_window, rget, Rsum, column. cbn. apply f_equal, f_equal, f_equal2; [lra|apply f_equal2; [lra|reflexivity]].
  - apply C44_conv1d_panics; [reflexivity|reflexivity|cbn; lia|cbn; lia|]. intros (_ & _ & [H|(_ & n & H)]); unfold w, x in H; cbn [cols] in H; lia.
Qed.
Example C44_model_case : let w := mkDense 1 2 [1%R; 2%R] in let x := mkDense 1 4 [1%R; 10%R; 100%R; 1000%R] in
  conv_channel (fun w x => conv1d w x 2) (fun y => Some y) false 2 (Some [0; 1]%Z) [w; w] [scalar 7%R; scalar 5%R] [x; x] 0 = Some (column [26%R; 2105%R]) /\
  conv_channel (fun w x => conv1d w x 2) (fun y => Some y) false 2 (Some [0; 0]%Z) [w; w] [scalar 7%R; scalar 5%R] [x; x] 0 = None.
Proof.
  cbv zeta. set (w := mkDense 1 2 [1%R; 2%R]). set (x := mkDense 1 4 [1%R; 10%R; 100%R; 1000%R]).
  assert (Fw : fits w 1 2) by (now repeat split). assert (Fx : fits x 1 (2 + 1 * 2)) by (now repeat split). assert (Fs : forall v : R, fits (scalar v) 1 1) by (now repeat split).
  change 2%Z with (Z.of_nat 2). split; rewrite (C44_model1d _ _ _ _ _ 2 0 1 2 1 2); cbn; auto; try lia. unfold vec, column. cbn. unfold over_channels, at_window, rget, Rsum, entry. cbn. apply f_equal, f_equal, f_equal2; [lra|apply f_equal2; [lra|reflexivity]].
Qed.
