(** * Sums indexed by nodes, and facts on the static part of the model *)
From Coq Require Import List Arith ZArith Bool Lia Permutation.
From Verif Require Import AgModel AgSpec.
Import ListNotations.

Lemma upd_same {A} (f : nat -> A) x v : upd f x v x = v.
Proof. unfold upd. now rewrite Nat.eqb_refl. Qed.
Lemma upd_other {A} (f : nat -> A) x y v : y <> x -> upd f x v y = f y.
Proof. unfold upd. intros H. destruct (Nat.eqb_spec y x); congruence. Qed.

(** ** Integer sums *)
Fixpoint sumZ (n : nat) (f : nat -> Z) : Z :=
  match n with O => 0%Z | S n => (sumZ n f + f n)%Z end.

Lemma sumZ_ext n f h : (forall y, y < n -> f y = h y) -> sumZ n f = sumZ n h.
Proof.
  induction n as [|n IH]; cbn; intros H; [reflexivity|].
  rewrite IH by (intros; apply H; lia). rewrite (H n) by lia. reflexivity.
Qed.

Lemma sumZ_nonneg n f : (forall y, y < n -> (0 <= f y)%Z) -> (0 <= sumZ n f)%Z.
Proof.
  induction n as [|n IH]; cbn; intros H; [lia|].
  specialize (IH (fun y h => H y ltac:(lia))). specialize (H n ltac:(lia)). lia.
Qed.

Lemma sumZ_zero n f : (forall y, y < n -> f y = 0%Z) -> sumZ n f = 0%Z.
Proof.
  induction n as [|n IH]; cbn; intros H; [lia|].
  rewrite IH by (intros; apply H; lia). rewrite (H n) by lia. reflexivity.
Qed.

Lemma sumZ_ge n f y : (forall z, z < n -> (0 <= f z)%Z) -> y < n -> (f y <= sumZ n f)%Z.
Proof.
  induction n as [|n IH]; cbn; intros H Hy; [lia|].
  assert (H0 : (0 <= sumZ n f)%Z) by (apply sumZ_nonneg; intros; apply H; lia).
  destruct (Nat.eq_dec y n) as [->|Hne].
  - lia.
  - specialize (IH (fun z h => H z ltac:(lia)) ltac:(lia)). specialize (H n ltac:(lia)). lia.
Qed.

Lemma sumZ_eq0 n f y : (forall z, z < n -> (0 <= f z)%Z) -> sumZ n f = 0%Z -> y < n -> f y = 0%Z.
Proof.
  intros H H0 Hy. pose proof (sumZ_ge n f y H Hy). specialize (H y Hy). lia.
Qed.

Lemma sumZ_change n f h y : y < n -> (forall z, z <> y -> f z = h z) ->
  sumZ n h = (sumZ n f - f y + h y)%Z.
Proof.
  induction n as [|n IH]; cbn; intros Hy H; [lia|].
  destruct (Nat.eq_dec y n) as [->|Hne].
  - rewrite (sumZ_ext n h f); [lia|]. intros z Hz. symmetry. apply H. lia.
  - rewrite IH by (auto; lia). rewrite (H n) by lia. lia.
Qed.

Lemma sumZ_add n f h : sumZ n (fun y => (f y + h y)%Z) = (sumZ n f + sumZ n h)%Z.
Proof. induction n as [|n IH]; cbn; lia. Qed.

Lemma sumZ_pos n f : (0 < sumZ n f)%Z -> exists y, y < n /\ (0 < f y)%Z.
Proof.
  induction n as [|n IH]; cbn; intros H; [lia|].
  destruct (Z_lt_le_dec 0 (f n)) as [Hp|Hp].
  - exists n. lia.
  - destruct IH as (y & Hy & Hf); [lia|]. exists y. lia.
Qed.

(** ** Counting *)
Definition cnt (x : nat) (l : list nat) : Z := Z.of_nat (count_occ Nat.eq_dec l x).

Lemma cnt_nil x : cnt x [] = 0%Z. Proof. reflexivity. Qed.
Lemma cnt_cons x y l : cnt x (y :: l) = ((if Nat.eqb y x then 1 else 0) + cnt x l)%Z.
Proof.
  unfold cnt. cbn. destruct (Nat.eq_dec y x) as [->|H].
  - rewrite Nat.eqb_refl. lia.
  - destruct (Nat.eqb_spec y x); [congruence|]. lia.
Qed.
Lemma cnt_app x l1 l2 : cnt x (l1 ++ l2) = (cnt x l1 + cnt x l2)%Z.
Proof. unfold cnt. rewrite count_occ_app. lia. Qed.
Lemma cnt_nonneg x l : (0 <= cnt x l)%Z. Proof. unfold cnt; lia. Qed.
Lemma cnt_In x l : (0 < cnt x l)%Z <-> In x l.
Proof. unfold cnt. rewrite (count_occ_In Nat.eq_dec). lia. Qed.
Lemma cnt_notIn x l : ~ In x l <-> cnt x l = 0%Z.
Proof. rewrite <- cnt_In. pose proof (cnt_nonneg x l). lia. Qed.
Lemma cnt_filter p x l : p x = true -> cnt x (filter p l) = cnt x l.
Proof.
  intros Hp. induction l as [|y l IH]; [reflexivity|]. cbn [filter].
  destruct (p y) eqn:E; rewrite ?cnt_cons, IH; [reflexivity|].
  destruct (Nat.eqb_spec y x) as [->|]; [congruence|]. lia.
Qed.
Lemma cnt_count x l : cnt x l = Z.of_nat (count_occ Nat.eq_dec l x). Proof. reflexivity. Qed.
#[global] Opaque cnt.

(** ** Sums of optional gradients *)
Section Osum.
Context {G : Type}.
Variable gadd : G -> G -> G.
Hypothesis gadd_comm : forall a b, gadd a b = gadd b a.
Hypothesis gadd_assoc : forall a b c, gadd a (gadd b c) = gadd (gadd a b) c.

Notation oadd := (oadd gadd).
Notation osum := (osum gadd).

Lemma oadd_comm a b : oadd a b = oadd b a.
Proof. destruct a, b; cbn; try reflexivity. now rewrite gadd_comm. Qed.
Lemma oadd_assoc a b c : oadd a (oadd b c) = oadd (oadd a b) c.
Proof. destruct a, b, c; cbn; try reflexivity. now rewrite gadd_assoc. Qed.
Lemma oadd_none_l a : oadd None a = a. Proof. reflexivity. Qed.
Lemma oadd_none_r a : oadd a None = a. Proof. destruct a; reflexivity. Qed.

Lemma osum_app l1 l2 : osum (l1 ++ l2) = oadd (osum l1) (osum l2).
Proof.
  induction l1 as [|a l1 IH]; cbn; [reflexivity|]. unfold osum in *.
  rewrite IH. now rewrite oadd_assoc.
Qed.

Lemma osum_perm l1 l2 : Permutation l1 l2 -> osum l1 = osum l2.
Proof.
  induction 1 as [|a l l' H IH|a b l|l l' l'' H1 IH1 H2 IH2]; cbn; try reflexivity.
  - unfold osum in *. now rewrite IH.
  - rewrite !oadd_assoc. now rewrite (oadd_comm b a).
  - congruence.
Qed.

Fixpoint osumn (n : nat) (f : nat -> option G) : option G :=
  match n with O => None | S n => oadd (osumn n f) (f n) end.

Lemma osumn_ext n f h : (forall y, y < n -> f y = h y) -> osumn n f = osumn n h.
Proof.
  induction n as [|n IH]; cbn; intros H; [reflexivity|].
  rewrite IH by (intros; apply H; lia). rewrite (H n) by lia. reflexivity.
Qed.

Lemma osumn_none n f : (forall y, y < n -> f y = None) -> osumn n f = None.
Proof.
  induction n as [|n IH]; cbn; intros H; [reflexivity|].
  rewrite IH by (intros; apply H; lia). rewrite (H n) by lia. reflexivity.
Qed.

Lemma osumn_split n f y : y < n -> osumn n f = oadd (f y) (osumn n (upd f y None)).
Proof.
  induction n as [|n IH]; cbn; intros Hy; [lia|].
  destruct (Nat.eq_dec y n) as [->|Hne].
  - rewrite upd_same, oadd_none_r.
    rewrite (osumn_ext n (upd f n None) f).
    + apply oadd_comm.
    + intros z Hz. apply upd_other. lia.
  - rewrite IH by lia. rewrite upd_other by lia. now rewrite oadd_assoc.
Qed.

(** Changing one term of a sum. *)
Lemma osumn_change n f h y a b b' :
  y < n -> (forall z, z <> y -> f z = h z) ->
  oadd b (f y) = oadd b' (h y) ->
  oadd b (osumn n f) = a -> oadd b' (osumn n h) = a.
Proof.
  intros Hy H E Ha. rewrite (osumn_split n f y Hy) in Ha.
  rewrite (osumn_split n h y Hy).
  rewrite oadd_assoc, <- E, <- oadd_assoc.
  rewrite (osumn_ext n (upd h y None) (upd f y None)).
  - exact Ha.
  - intros z Hz. destruct (Nat.eq_dec z y) as [->|Hzy].
    + now rewrite !upd_same.
    + rewrite !upd_other by auto. symmetry. auto.
Qed.

Lemma osumn_some n f y : y < n -> f y <> None -> osumn n f <> None.
Proof.
  intros Hy Hf. rewrite (osumn_split n f y Hy).
  destruct (f y); [|congruence]. destruct (osumn n (upd f y None)); cbn; discriminate.
Qed.

Lemma osumn_is_osum n f : osumn n f = osum (map f (seq 0 n)).
Proof.
  induction n as [|n IH]; [reflexivity|].
  rewrite seq_S, map_app, osum_app. cbn [osumn]. rewrite IH. cbn.
  destruct (f n); cbn; now rewrite ?oadd_none_r.
Qed.

Lemma osum_none l : (forall a, In a l -> a = None) -> osum l = None.
Proof.
  induction l as [|a l IH]; intros H; [reflexivity|]. cbn.
  rewrite (H a) by (left; reflexivity). cbn. apply IH. intros; apply H; now right.
Qed.

(** A filtered sum: dropping the terms that are [None]. *)
Lemma osum_filter_map {A} (p : A -> bool) (f : A -> option G) l :
  osum (map (fun a => if p a then f a else None) l) = osum (map f (filter p l)).
Proof.
  induction l as [|a l IH]; [reflexivity|]. cbn [map filter].
  destruct (p a); cbn; unfold osum in *; now rewrite IH.
Qed.

End Osum.

(** ** Static facts *)
Section Static.
Context {G : Type}.
Notation graph := (@graph G).

Lemma req_fold_prefix (l : graph) acc x :
  x < length acc -> nth x (fold_left req_step l acc) false = nth x acc false.
Proof.
  revert acc. induction l as [|nd l IH]; intros acc Hx; cbn; [reflexivity|].
  rewrite IH.
  - unfold req_step. rewrite app_nth1 by lia. reflexivity.
  - unfold req_step. rewrite app_length. cbn. lia.
Qed.

Lemma req_fold_length (l : graph) acc :
  length (fold_left req_step l acc) = length acc + length l.
Proof.
  revert acc. induction l as [|nd l IH]; intros acc; cbn; [lia|].
  rewrite IH. unfold req_step. rewrite app_length. cbn. lia.
Qed.

Lemma requires_unfold (g : graph) x nd :
  acyclic g -> nth_error g x = Some nd ->
  requires g x = match nkind nd with
                 | Leaf r => r
                 | Oper ops _ => existsb (requires g) ops
                 end.
Proof.
  intros Ha Hx. unfold requires, req_list.
  destruct (nth_error_split g x Hx) as (l1 & l2 & Hg & Hl).
  rewrite Hg, fold_left_app. cbn [fold_left].
  set (acc := fold_left req_step l1 []).
  assert (Hacc : length acc = x) by (unfold acc; rewrite req_fold_length; cbn; lia).
  rewrite req_fold_prefix.
  2:{ unfold req_step. rewrite app_length. cbn. lia. }
  unfold req_step at 1. rewrite app_nth2 by lia. rewrite Hacc, Nat.sub_diag. cbn [nth].
  destruct (nkind nd) as [r|ops ss] eqn:Hk; [reflexivity|].
  assert (Hops : forall k, In k ops -> k < x).
  { intros k Hin. apply (Ha x k). unfold operands_of. rewrite Hx.
    destruct nd as [kd sc]; cbn in Hk; subst kd. exact Hin. }
  clear Hk Hx. induction ops as [|k ops IH]; [reflexivity|]. cbn [existsb].
  rewrite IH by (intros; apply Hops; now right). f_equal.
  rewrite req_fold_prefix.
  - unfold req_step. rewrite app_nth1 by (rewrite Hacc; apply Hops; now left). reflexivity.
  - unfold req_step. rewrite app_length. cbn. rewrite Hacc.
    specialize (Hops k (or_introl eq_refl)). lia.
Qed.

Lemma requires_out (g : graph) x : length g <= x -> requires g x = false.
Proof.
  intros H. unfold requires. apply nth_overflow. unfold req_list.
  rewrite req_fold_length. cbn. lia.
Qed.

Lemma is_oper_lt (g : graph) x : is_oper g x = true -> x < length g.
Proof.
  unfold is_oper. destruct (nth_error g x) eqn:E; [|discriminate].
  intros _. apply nth_error_Some. congruence.
Qed.

Lemma requires_lt (g : graph) x : requires g x = true -> x < length g.
Proof.
  intros H. destruct (le_lt_dec (length g) x) as [Hl|]; [|assumption].
  rewrite requires_out in H by assumption. discriminate.
Qed.

Lemma requires_spec (g : graph) x : acyclic g ->
  requires g x = true <-> leads_to_grad g x.
Proof.
  intros Ha. split.
  - induction x as [x IH] using lt_wf_ind. intros Hr.
    pose proof (requires_lt g x Hr) as Hx. apply nth_error_Some in Hx.
    destruct (nth_error g x) as [nd|] eqn:E; [clear Hx|congruence].
    rewrite (requires_unfold g x nd Ha E) in Hr.
    destruct nd as [[r|ops ss] sc]; cbn in Hr.
    + subst r. eapply ltg_leaf; eauto.
    + apply existsb_exists in Hr. destruct Hr as (k & Hin & Hk).
      assert (Hin' : In k (operands_of g x)) by (unfold operands_of; rewrite E; exact Hin).
      apply (ltg_op g x k Hin'). apply IH; [apply (Ha x k Hin')|exact Hk].
  - induction 1 as [x sc E|x k Hin _ IH].
    + rewrite (requires_unfold g x _ Ha E). reflexivity.
    + unfold operands_of in Hin. destruct (nth_error g x) as [[[r|ops ss] sc]|] eqn:E;
        try contradiction.
      rewrite (requires_unfold g x _ Ha E). cbn. apply existsb_exists. eauto.
Qed.

Lemma operands_oper (g : graph) x k : In k (operands_of g x) -> is_oper g x = true.
Proof.
  unfold operands_of, is_oper. destruct (nth_error g x) as [[[r|ops ss] sc]|]; cbn; tauto.
Qed.

Lemma operand_requires (g : graph) x k : acyclic g ->
  In k (operands_of g x) -> requires g k = true -> requires g x = true.
Proof.
  intros Ha Hin Hk. rewrite requires_spec in * by assumption. eapply ltg_op; eauto.
Qed.

End Static.
