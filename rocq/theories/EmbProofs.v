(** * Proofs about the bookkeeping of embeddings *)
From Coq Require Import List Arith Bool ZArith Lia.
From Verif Require Import EmbModel EmbSpec.
Import ListNotations.

Section P.
Context {G : Type}.
Variable gadd : G -> G -> G.

Lemma in_mark l i j : In j (mark l i) <-> j = i \/ In j l.
Proof.
  unfold mark. destruct (existsb (Nat.eqb i) l) eqn:E; cbn; [|split; intros [?|?]; auto].
  split; [now right|]. intros [->|H]; [|exact H]. apply existsb_exists in E. destruct E as (x & Hx & E). apply Nat.eqb_eq in E. now subst.
Qed.
Lemma nodup_mark l i : NoDup l -> NoDup (mark l i).
Proof.
  intros H. unfold mark. destruct (existsb (Nat.eqb i) l) eqn:E; [exact H|]. constructor; [|exact H]. intros X.
  assert (existsb (Nat.eqb i) l = true) by (apply existsb_exists; exists i; split; [exact X|apply Nat.eqb_refl]). congruence.
Qed.
Lemma in_unmark l i j : In j (unmark l i) <-> In j l /\ j <> i.
Proof. unfold unmark. rewrite filter_In. destruct (Nat.eqb_spec j i); cbn; intuition (auto; congruence). Qed.

Lemma zeros_grad l : forall (m : emb G) j, grad (fold_left param_zero l m) j = (if existsb (Nat.eqb j) l then None else grad m j) /\ size (fold_left param_zero l m) = size m.
Proof.
  induction l as [|i l IH]; intros m j; cbn [fold_left existsb]; [auto|]. destruct (IH (param_zero m i) j) as [-> ->]. split; [|reflexivity].
  cbn. destruct (j =? i), (existsb (Nat.eqb j) l); reflexivity.
Qed.

(** [k]: some gradient may have been cleared behind the model's back *)
Record inv (exact : bool) (m : emb G) (os : list (op G)) : Prop := {
  i_grad : forall i, grad m i = sum_of gadd (since i os);
  i_marked : exists l, marked m = Some l /\ NoDup l /\ (forall i, grad m i <> None -> In i l) /\ (exact = true -> forall i, In i l -> grad m i <> None) }.

Lemma since_snoc i (os : list (op G)) o : since i (os ++ [o]) = match o with
    | Acc j g | Direct j g => if j =? i then since i os ++ [g] else since i os
    | Zero j | Cleared j => if j =? i then [] else since i os
    | ZeroAll => []
    end.
Proof. unfold since. rewrite fold_left_app. destruct o; reflexivity. Qed.
Lemma sum_snoc gs g : sum_of gadd (gs ++ [g]) = Some (match sum_of gadd gs with None => g | Some a => gadd a g end).
Proof. destruct gs as [|a gs]; cbn; [reflexivity|]. now rewrite fold_left_app. Qed.

Lemma inv_step (exact : bool) m os o : inv exact m os -> not_direct o -> (exact = true -> through_embeddings o) ->
  exists m', apply_op gadd m o = Some m' /\ inv exact m' (os ++ [o]) /\ size m' = size m.
Proof.
  intros [Hg (l & El & Nd & Hl & Hx)] Nd1 Ex. destruct o as [i g|i| |i|i g]; cbn [apply_op]; try contradiction.
  - unfold emb_acc. rewrite El. eexists. split; [reflexivity|]. split; [|reflexivity]. split.
    + intros j. rewrite since_snoc. cbn. rewrite (Nat.eqb_sym i j). destruct (Nat.eqb_spec j i) as [->|]; [|apply Hg]. rewrite sum_snoc, <- Hg. reflexivity.
    + exists (mark l i). cbn. repeat split; auto using nodup_mark.
      * intros j H. apply in_mark. destruct (Nat.eqb_spec j i); [now left|]. right. now apply Hl.
      * intros E j H. apply in_mark in H. destruct (Nat.eqb_spec j i); [discriminate|]. destruct H; [congruence|]. now apply Hx.
  - eexists. split; [reflexivity|]. split; [|reflexivity]. split.
    + intros j. rewrite since_snoc. cbn. rewrite (Nat.eqb_sym i j). destruct (Nat.eqb_spec j i); [reflexivity|apply Hg].
    + exists (unmark l i). cbn. rewrite El. cbn. split; [reflexivity|]. split; [now apply NoDup_filter|]. split.
      * intros j H. apply in_unmark. destruct (Nat.eqb_spec j i); [congruence|]. split; [now apply Hl|assumption].
      * intros E j H. apply in_unmark in H. destruct (Nat.eqb_spec j i); [destruct H; congruence|]. now apply Hx.
  - eexists. split; [reflexivity|]. unfold model_zero. rewrite El. split; [|apply (zeros_grad l m 0)]. split.
    + intros j. rewrite since_snoc. cbn. rewrite (proj1 (zeros_grad l m j)). destruct (existsb (Nat.eqb j) l) eqn:E; [reflexivity|].
      destruct (grad m j) eqn:Ej; [|reflexivity]. exfalso. assert (In j l) by (apply Hl; congruence).
      assert (existsb (Nat.eqb j) l = true) by (apply existsb_exists; exists j; split; [assumption|apply Nat.eqb_refl]). congruence.
    + exists []. cbn. repeat split; [constructor| |contradiction]. intros j H. apply H. rewrite (proj1 (zeros_grad l m j)).
      destruct (existsb (Nat.eqb j) l) eqn:E; [reflexivity|]. destruct (grad m j) eqn:Ej; [|reflexivity]. exfalso. assert (In j l) by (apply Hl; congruence).
      assert (existsb (Nat.eqb j) l = true) by (apply existsb_exists; exists j; split; [assumption|apply Nat.eqb_refl]). congruence.
  - eexists. split; [reflexivity|]. split; [|reflexivity]. split.
    + intros j. rewrite since_snoc. cbn. rewrite (Nat.eqb_sym i j). destruct (Nat.eqb_spec j i); [reflexivity|apply Hg].
    + exists l. cbn. repeat split; auto.
      * intros j H. apply Hl. destruct (Nat.eqb_spec j i); [congruence|assumption].
      * intros E. destruct (Ex E).
Qed.
Lemma inv_history (exact : bool) n os : Forall not_direct os -> (exact = true -> Forall through_embeddings os) ->
  exists m, history gadd (new n) os = Some m /\ inv exact m os /\ size m = n.
Proof.
  assert (X : forall os pre m, inv exact m pre -> Forall not_direct os -> (exact = true -> Forall through_embeddings os) ->
    exists m', history gadd m os = Some m' /\ inv exact m' (pre ++ os) /\ size m' = size m).
  { clear. induction os as [|o os IH]; intros pre m I F F2; cbn [history]; [exists m; rewrite app_nil_r; auto|]. inversion F; subst.
    destruct (inv_step exact m pre o I) as (m1 & -> & I1 & S1); [assumption|intros E; specialize (F2 E); now inversion F2|].
    destruct (IH (pre ++ [o]) m1 I1) as (m2 & E2 & I2 & S2); [assumption|intros E; specialize (F2 E); now inversion F2|].
    exists m2. rewrite <- app_assoc in I2. repeat split; try apply I2; auto. congruence. }
  intros F F2. destruct (X os [] (new n)) as (m & E & I & S); auto.
  - split; [reflexivity|]. exists []. cbn. repeat split; [constructor|congruence|contradiction].
  - exists m. auto.
Qed.
Lemma nodup_same (l l' : list nat) : NoDup l -> NoDup l' -> (forall i, In i l <-> In i l') -> length l = length l'.
Proof. intros N N' H. apply Nat.le_antisymm; apply NoDup_incl_length; auto; intros x Hx; now apply H. Qed.
Lemma encode_spec (m : emb G) input : (forall es, encode m input = Some es -> map Z.of_nat es = input /\ Forall (fun i => i < size m) es) /\
  (encode m input = None <-> Exists (fun i => ~ (0 <= i < Z.of_nat (size m))%Z) input).
Proof.
  induction input as [|i input [IH1 IH2]]; cbn [encode].
  - split; [intros es E; injection E as <-; auto|]. split; [discriminate|inversion 1].
  - unfold embedding. destruct (Z.ltb_spec i 0), (Z.leb_spec (Z.of_nat (size m)) i); cbn [orb]; try (split; [discriminate|]; split; [|reflexivity]; left; lia).
    destruct (encode m input) as [es|] eqn:E.
    + split; [|split; [discriminate|]].
      * intros es' Ee. injection Ee as <-. destruct (IH1 es eq_refl) as [<- F]. split; [cbn; f_equal; lia|]. constructor; [lia|exact F].
      * intros X. inversion X as [? ? Y|? ? Y]; subst; [lia|]. apply IH2 in Y. discriminate.
    + split; [discriminate|]. split; [|reflexivity]. intros _. right. now apply IH2.
Qed.
End P.
