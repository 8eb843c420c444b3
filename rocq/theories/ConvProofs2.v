(** * Proofs about the convolution models *)
From Coq Require Import Reals List Arith Bool ZArith Lia Lra.
From Verif Require Import DenseModel DenseSpec DenseLemmas ArithModel GradModel GradSpec GradLemmas GradProofs2 GradProofs6 GradProofs8 GradProofs9 GradProofs13 OpsModel OpsSpec OpsLemmas OpsProofs4 AttSpec AttProofs ConvModel ConvSpec ConvProofs.
Import ListNotations.
Open Scope nat_scope.

Section Channels.
Variables (conv : mat -> mat -> option mat) (act : mat -> option mat) (mask : option (list Z)) (k b : list mat) (off r c : nat).
Variables (f : nat -> nat -> R) (beta : nat -> R).
Definition plus_channel (acc : option (nat -> R)) (i : nat) : option (nat -> R) :=
  if passes mask i then Some (fun p => match acc with None => f i p | Some g => g p + f i p end + beta i)%R else acc.
Lemma ag_add_flat acc h : ag_add (option_map (flat r c) acc) (flat r c h) = Some (flat r c (fun p => match acc with None => h p | Some g => g p + h p end)%R).
Proof. destruct acc as [g|]; cbn [option_map ag_add]; [apply v_add|apply v_copy]. Qed.
Lemma channels_value xs : forall i acc, match mask with None => True | Some l => i + length xs <= length l end ->
  (forall j, j < length xs -> passes mask (i + j) = true -> exists w, nth_error k (i + j + off) = Some w /\ conv w (kth xs j) = Some (flat r c (f (i + j))) /\ nth_error b (i + j + off) = Some (scalar (beta (i + j)))) ->
  channels conv mask k b off i xs (option_map (flat r c) acc) = Some (option_map (flat r c) (fold_left plus_channel (seq i (length xs)) acc)).
Proof.
  induction xs as [|x xs IH]; intros i acc Hm H; [reflexivity|]. cbn [channels length seq fold_left].
  assert (On : match mask with None => Some true | Some l => do v <- nth_error l i; Some (v =? 1)%Z end = Some (passes mask i)).
  { unfold passes. destruct mask as [l|]; [|reflexivity]. cbn [length] in Hm. rewrite (nth_error_nth' l 0%Z) by lia. reflexivity. }
  rewrite On. cbn [bind].
  assert (Next : forall acc, channels conv mask k b off (S i) xs (option_map (flat r c) acc) = Some (option_map (flat r c) (fold_left plus_channel (seq (S i) (length xs)) acc))).
  { intros a. apply IH; [destruct mask; cbn [length] in Hm; [lia|auto]|]. intros j Hj P. replace (S i + j) with (i + S j) in * by lia. destruct (H (S j) ltac:(cbn; lia) P) as (w & ?). exists w. auto. }
  unfold plus_channel at 2. destruct (passes mask i) eqn:P; [|apply Next].
  destruct (H 0 ltac:(cbn; lia)) as (w & Ew & Ec & Eb); [now rewrite Nat.add_0_r|]. rewrite Nat.add_0_r in *. change (kth (x :: xs) 0) with x in Ec.
  rewrite Ew. cbn [bind]. rewrite Ec. cbn [bind]. rewrite ag_add_flat. cbn [bind]. rewrite Eb. cbn [bind]. rewrite v_adds. cbn [bind].
  match goal with |- channels _ _ _ _ _ _ _ (Some (flat r c ?g)) = _ => exact (Next (Some g)) end.
Qed.
Lemma fold_channels n : 
  fold_left plus_channel (seq 0 n) None = None /\ (forall i, i < n -> passes mask i = false) \/
  exists g, fold_left plus_channel (seq 0 n) None = Some g /\ (exists i, i < n /\ passes mask i = true) /\ forall p, g p = over_channels mask n (fun i => f i p + beta i)%R.
Proof.
  induction n as [|n [[E N]|(g & E & (j & Hj & Pj) & G)]].
  - left. split; [reflexivity|lia].
  - rewrite seq_S, fold_left_app, E. cbn [fold_left]. unfold plus_channel. cbn [plus]. destruct (passes mask n) eqn:P.
    + right. eexists. split; [reflexivity|]. split; [exists n; auto|]. intros p. unfold over_channels. rewrite Rsum_r, P. rewrite (Rsum_ext n _ (fun _ => 0%R)) by (intros i Hi; now rewrite N by auto). rewrite Rsum_0; [lra|reflexivity].
    + left. split; [reflexivity|]. intros i Hi. destruct (Nat.eq_dec i n) as [->|]; [auto|apply N; lia].
  - right. rewrite seq_S, fold_left_app, E. cbn [fold_left]. unfold plus_channel. cbn [plus]. destruct (passes mask n) eqn:P.
    + eexists. split; [reflexivity|]. split; [exists j; auto|]. intros p. unfold over_channels. rewrite Rsum_r, P. rewrite G. unfold over_channels. lra.
    + eexists. split; [reflexivity|]. split; [exists j; auto|]. intros p. unfold over_channels. rewrite Rsum_r, P. rewrite G. unfold over_channels. lra.
Qed.
End Channels.

Lemma channel_value conv act inputs mask k b xs o r c f beta : mask_fits mask (length xs) ->
  (forall j, j < length xs -> passes mask j = true -> exists w, nth_error k (o * inputs + j) = Some w /\ conv w (kth xs j) = Some (flat r c (f j)) /\ nth_error b (o * inputs + j) = Some (scalar (beta j))) ->
  conv_channel conv act false inputs mask k b xs o =
  if existsb (passes mask) (seq 0 (length xs)) then act (flat r c (fun p => over_channels mask (length xs) (fun i => f i p + beta i)%R)) else None.
Proof.
  intros Hm H. unfold conv_channel.
  pose proof (channels_value conv mask k b (o * inputs) r c f beta xs 0 None) as V. cbn [option_map] in V. rewrite V; clear V.
  - cbn [bind]. destruct (fold_channels mask f beta (length xs)) as [[E N]|(g & E & (j & Hj & Pj) & G)]; rewrite E; cbn [option_map].
    + replace (existsb _ _) with false; [reflexivity|]. symmetry. apply not_true_is_false. intros X. apply existsb_exists in X. destruct X as (i & Hi & P). apply in_seq in Hi. rewrite N in P by lia. discriminate.
    + replace (existsb _ _) with true by (symmetry; apply existsb_exists; exists j; split; [apply in_seq; lia|auto]). f_equal. apply flat_ext. intros p _. apply G.
  - destruct mask; cbn in *; lia.
  - intros j Hj P. cbn [plus] in *. destruct (H j Hj P) as (w & Ew & Ec & Eb). exists w. rewrite (Nat.add_comm j). auto.
Qed.
Lemma depthwise_value conv act inputs mask k b xs o r c w g beta : nth_error k o = Some w -> o < length xs -> conv w (kth xs o) = Some (flat r c g) -> nth_error b o = Some (scalar beta) ->
  conv_channel conv act true inputs mask k b xs o = act (flat r c (fun p => g p + beta)%R).
Proof.
  intros Ew Ho Ec Eb. unfold conv_channel. rewrite Ew. cbn [bind]. rewrite (nth_error_nth' xs (mkDense 0 0 [])) by auto. cbn [bind]. fold (kth xs o). rewrite Ec. cbn [bind]. rewrite Eb. cbn [bind]. now rewrite v_adds.
Qed.
Lemma each_forward {A} (f : nat -> option A) n ys : each f (seq 0 n) = Some ys -> length ys = n /\ forall i, i < n -> nth_error ys i = f i.
Proof.
  assert (X : forall n s ys, each f (seq s n) = Some ys -> length ys = n /\ forall i, i < n -> nth_error ys i = f (s + i)).
  { clear. induction n as [|n IH]; intros s ys E; cbn [seq each] in E; [injection E as <-; split; [reflexivity|lia]|].
    destruct (f s) as [y|] eqn:Ey; [|discriminate]. cbn [bind] in E. destruct (each f (seq (S s) n)) as [l|] eqn:El; [|discriminate]. injection E as <-. destruct (IH _ _ El) as [L N].
    split; [cbn; lia|]. intros [|i] Hi; cbn; [now rewrite Nat.add_0_r, Ey|]. rewrite N by lia. f_equal. lia. }
  intros E. destruct (X n 0 ys E). auto.
Qed.

(** ** conv1x1 *)
Lemma conv1x1_value wide w b n c xs : fits w n (length xs) -> is_vec n b -> xs <> [] -> List.Forall (is_vec c) xs ->
  conv1x1 wide w b n xs = Some (map (fun o => vec c (fun j => Rsum (length xs) (fun i => rget w o i * entry (kth xs i) j) + entry b o)%R) (seq 0 n)).
Proof.
  intros Fw Fb Hne Fx. unfold conv1x1. rewrite (stack_value c) by auto. cbn [bind].
  destruct (mul_gives wide w (rows_of c xs) n (length xs) c Fw (rows_fits c xs Fx)) as (m & Em & Hm). rewrite Em. cbn [bind].
  pose proof Hm as (Wm & Rm & Cm & Vm). apply each_map. intros o Ho. apply in_seq in Ho.
  destruct (row_view_gives m (Z.of_nat o) Wm) as (v & Ev & Hv); [lia|]. rewrite Ev. cbn [bind]. rewrite Cm in Hv.
  destruct (transpose_gives v 1 c (elems_fits _ _ _ _ Hv)) as (t & Et & Ht). rewrite Et. cbn [bind].
  pose proof Fb as (Wb & Rb & Cb). rewrite (v_at1 b o); [|auto|unfold is_vector; rewrite Cb, Nat.eqb_refl, orb_true_r; reflexivity|rewrite Wb, Rb, Cb; lia]. cbn [bind].
  rewrite (elems_vec _ _ _ Ht). rewrite vec_flat, v_adds, <- vec_flat. f_equal. apply vec_ext. intros j Hj. cbv beta.
  rewrite (rget_elems _ _ _ _ 0 j Hv) by lia. rewrite Nat2Z.id. rewrite Vm by lia. f_equal. apply Rsum_ext. intros i Hi. now rewrite rows_rget by auto.
Qed.
