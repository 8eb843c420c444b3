(** * Proof that the engine computes derivatives *)
From Coq Require Import Reals List Arith Bool Permutation Lia Lra FunctionalExtensionality.
From Coquelicot Require Import Coquelicot.
From Verif Require Import DenseModel DenseSpec AgModel AgSpec AgLemmas AgMain ArithSpec GradModel GradSpec GradLemmas DiffSpec.
Import ListNotations.
Open Scope R_scope.

(** ** Sums over lists *)
Definition lsum {A} (f : A -> R) (l : list A) : R := fold_right (fun x s => f x + s) 0 l.
Lemma lsum_nil {A} (f : A -> R) : lsum f [] = 0. Proof. reflexivity. Qed.
Lemma lsum_cons {A} (f : A -> R) x l : lsum f (x :: l) = f x + lsum f l. Proof. reflexivity. Qed.
Lemma lsum_app {A} (f : A -> R) l1 l2 : lsum f (l1 ++ l2) = lsum f l1 + lsum f l2.
Proof. induction l1 as [|x l1 IH]; [rewrite lsum_nil; cbn [app]; ring|]. cbn [app]. rewrite !lsum_cons, IH. ring. Qed.
Lemma lsum_perm {A} (f : A -> R) l1 l2 : Permutation l1 l2 -> lsum f l1 = lsum f l2.
Proof. induction 1; rewrite ?lsum_cons; lra. Qed.
Lemma lsum_ext {A} (f g : A -> R) l : (forall x, In x l -> f x = g x) -> lsum f l = lsum g l.
Proof. induction l as [|x l IH]; intros H; [reflexivity|]. rewrite !lsum_cons, (H x) by now left. f_equal. apply IH. intros y Hy. apply H. now right. Qed.
Lemma lsum_map {A B} (f : B -> R) (h : A -> B) l : lsum f (map h l) = lsum (fun x => f (h x)) l.
Proof. induction l as [|x l IH]; [reflexivity|]. cbn [map]. now rewrite !lsum_cons, IH. Qed.
Lemma lsum_plus {A} (f g : A -> R) l : lsum (fun x => f x + g x) l = lsum f l + lsum g l.
Proof. induction l as [|x l IH]; [rewrite !lsum_nil; ring|]. rewrite !lsum_cons, IH. ring. Qed.
Lemma lsum_0 {A} (f : A -> R) l : (forall x, In x l -> f x = 0) -> lsum f l = 0.
Proof. induction l as [|x l IH]; intros H; [reflexivity|]. rewrite lsum_cons, (H x) by now left. rewrite IH; [ring|]. intros y Hy. apply H. now right. Qed.
Lemma lsum_swap {A B} (f : A -> B -> R) l1 l2 : lsum (fun x => lsum (f x) l2) l1 = lsum (fun y => lsum (fun x => f x y) l1) l2.
Proof.
  induction l1 as [|x l1 IH]; [symmetry; apply lsum_0; reflexivity|]. rewrite lsum_cons, IH, <- lsum_plus. reflexivity.
Qed.
Lemma lsum_flat_map {A B} (f : B -> R) (h : A -> list B) l : lsum f (flat_map h l) = lsum (fun x => lsum f (h x)) l.
Proof. induction l as [|x l IH]; [reflexivity|]. cbn [flat_map]. now rewrite lsum_app, lsum_cons, IH. Qed.
Lemma lsum_filter {A} (f : A -> R) (b : A -> bool) l : lsum f (filter b l) = lsum (fun x => if b x then f x else 0) l.
Proof. induction l as [|x l IH]; [reflexivity|]. cbn [filter]. rewrite (lsum_cons (fun x => if b x then f x else 0)). destruct (b x); rewrite ?lsum_cons, IH; ring. Qed.
(** exactly one x of the list is k *)
Lemma lsum_pick k (v : R) l : NoDup l -> In k l -> lsum (fun x => if (k =? x)%nat then v else 0) l = v.
Proof.
  induction l as [|x l IH]; intros HN HI; [destruct HI|]. inversion_clear HN as [|? ? Hx HN']. rewrite lsum_cons. destruct HI as [->|HI].
  - rewrite Nat.eqb_refl. rewrite (lsum_0 (fun x => if (k =? x)%nat then v else 0) l); [ring|]. intros y Hy. destruct (Nat.eqb_spec k y) as [->|]; [contradiction|reflexivity].
  - destruct (Nat.eqb_spec k x) as [->|]; [contradiction|]. rewrite IH by auto. ring.
Qed.

Lemma NoDup_app' {A} (l1 l2 : list A) : NoDup l1 -> NoDup l2 -> (forall x, In x l1 -> ~ In x l2) -> NoDup (l1 ++ l2).
Proof.
  induction 1 as [|x l1 Hx _ IH]; intros H2 HD; [exact H2|]. cbn. constructor.
  - rewrite in_app_iff. intros [H|H]; [contradiction|]. apply (HD x); [now left|exact H].
  - apply IH; auto. intros y Hy. apply HD. now right.
Qed.

(** ** The values move *)
Lemma moves_fixed x : wf x -> moves (fun _ => x) (build (rows x) (cols x) (fun _ _ => 0)).
Proof.
  intros W. destruct (fits_build (rows x) (cols x) (fun _ _ => 0)) as (a & b & d). split; [exact a|]. split; [intros _; repeat split; auto|].
  rewrite b, d. intros i j Hi Hj. rewrite rget_build by auto. apply d_const.
Qed.
Lemma inner_moves u X V : moves X V -> wf u -> same_shape u V -> is_derive (fun t => inner u (X t)) 0 (inner u V).
Proof.
  intros M Wu (Sr & Sc). destruct M as (WV & HS & HD). unfold inner. rewrite Sr, Sc.
  apply Rsum_derive. intros i Hi. apply Rsum_derive. intros j Hj. apply (is_derive_scal (fun t => rget (X t) i j) 0 (rget u i j) (rget V i j)). now apply HD.
Qed.

Section Diff.
Variables (p : program) (v : nat -> mat) (g : @graph pgrad).
Hypotheses (Hord : ordered p) (HG : engine_graph p v g) (HC : all_correct p v g).

Lemma node_op x f ops : nth_error p x = Some (POp f ops) -> is_oper g x = true /\ operands_of g x = ops.
Proof.
  intros H. destruct HG as (_ & HG'). specialize (HG' x _ H). cbn in HG'. destruct HG' as (sends & E & _). unfold is_oper, operands_of. rewrite E. auto.
Qed.
Lemma node_var x r : nth_error p x = Some (PVar r) -> is_oper g x = false /\ operands_of g x = [].
Proof. intros H. destruct HG as (_ & HG'). specialize (HG' x _ H). cbn in HG'. unfold is_oper, operands_of. rewrite HG'. auto. Qed.
Lemma op_node x : is_oper g x = true -> exists f ops, nth_error p x = Some (POp f ops).
Proof.
  intros H. destruct (nth_error p x) as [[r|f ops]|] eqn:E; [|eauto|].
  - destruct (node_var x r E). congruence.
  - apply nth_error_None in E. destruct HG as (L & _). unfold is_oper in H. replace (nth_error g x) with (@None (@node pgrad)) in H; [discriminate|]. symmetry. apply nth_error_None. lia.
Qed.
Lemma graph_acyclic : acyclic g.
Proof.
  intros x k Hk. destruct (nth_error p x) as [[r|f ops]|] eqn:E.
  - rewrite (proj2 (node_var x r E)) in Hk. destruct Hk.
  - rewrite (proj2 (node_op x f ops E)) in Hk. eapply Hord; eauto.
  - apply nth_error_None in E. destruct HG as (L & _). unfold operands_of in Hk. replace (nth_error g x) with (@None (@node pgrad)) in Hk; [destruct Hk|]. symmetry. apply nth_error_None. lia.
Qed.
Lemma req_leaf x r : nth_error p x = Some (PVar r) -> requires g x = r.
Proof. intros H. destruct HG as (_ & HG'). specialize (HG' x _ H). cbn in HG'. rewrite (requires_unfold g x _ graph_acyclic HG'). reflexivity. Qed.
Lemma req_op x f ops : nth_error p x = Some (POp f ops) -> requires g x = existsb (requires g) ops.
Proof.
  intros H. destruct HG as (_ & HG'). specialize (HG' x _ H). cbn in HG'. destruct HG' as (s & E & _). exact (requires_unfold g x _ graph_acyclic E).
Qed.
Lemma req_operand x f ops k : nth_error p x = Some (POp f ops) -> In k ops -> requires g k = true -> requires g x = true.
Proof. intros H Hk R. rewrite (req_op x f ops H). apply existsb_exists. eauto. Qed.

(** ** Values along a curve *)
Section Values.
Variables (E : R -> nat -> mat) (V : nat -> mat).
Hypotheses (HV : computes p (E 0) v) (HW : forall x, (x < length p)%nat -> wf (v x)) (HM : leaves_move p E V).

Definition good (n : nat) (Y : nat -> R -> mat) (dY : nat -> mat) : Prop :=
  (forall x, (x < n)%nat -> moves (Y x) (dY x) /\ Y x 0 = v x /\ (requires g x = false -> forall t, Y x t = v x)) /\
  (forall x, (x < n)%nat -> nth_error p x = Some (PVar true) -> dY x = V x) /\
  (forall x f ops, (x < n)%nat -> nth_error p x = Some (POp f ops) -> requires g x = true -> forall gy, wf gy -> same_shape gy (v x) ->
     exists calls, bwd f (map v ops) (required g ops) gy = Some calls /\ work calls (map dY ops) = inner gy (dY x)) /\
  locally 0 (fun t => forall x nd, (x < n)%nat -> nth_error p x = Some nd ->
     match nd with PVar _ => Y x t = E t x | POp f ops => fwd f (map (fun k => Y k t) ops) = Some (Y x t) end).

Lemma put_other {A} (F : nat -> A) n a x : (x < n)%nat -> (fun k => if (k =? n)%nat then a else F k) x = F x.
Proof. intros H. cbn. destruct (Nat.eqb_spec x n); [lia|reflexivity]. Qed.
Lemma put_here {A} (F : nat -> A) n a : (fun k => if (k =? n)%nat then a else F k) n = a.
Proof. cbn. now rewrite Nat.eqb_refl. Qed.
Lemma put_map {A} (F : nat -> A) n a l : (forall k, In k l -> (k < n)%nat) -> map (fun k => if (k =? n)%nat then a else F k) l = map F l.
Proof. intros H. apply map_ext_in. intros k Hk. apply (put_other F n a k). auto. Qed.

Lemma good_step n Y dY Yn dn : good n Y dY -> (n < length p)%nat ->
  moves Yn dn -> Yn 0 = v n -> (requires g n = false -> forall t, Yn t = v n) ->
  (nth_error p n = Some (PVar true) -> dn = V n) ->
  (forall f ops, nth_error p n = Some (POp f ops) -> requires g n = true -> forall gy, wf gy -> same_shape gy (v n) ->
     exists calls, bwd f (map v ops) (required g ops) gy = Some calls /\ work calls (map dY ops) = inner gy dn) ->
  (forall nd, nth_error p n = Some nd -> locally 0 (fun t => match nd with PVar _ => Yn t = E t n | POp f ops => fwd f (map (fun k => Y k t) ops) = Some (Yn t) end)) ->
  good (S n) (fun k => if (k =? n)%nat then Yn else Y k) (fun k => if (k =? n)%nat then dn else dY k).
Proof.
  intros (G1 & G2 & G3 & G4) Hn M Y0 Q A B C. split; [|split; [|split]].
  - intros x Hx. destruct (Nat.eqb_spec x n) as [->|]; [auto|]. apply G1. lia.
  - intros x Hx Ex. destruct (Nat.eqb_spec x n) as [->|]; [auto|]. apply G2; auto. lia.
  - intros x f ops Hx Ex R gy Wg Sg. assert (HO : forall k, In k ops -> (k < n)%nat) by (intros k Hk; pose proof (Hord x f ops k Ex Hk); lia).
    rewrite (put_map dY n dn ops HO). destruct (Nat.eqb_spec x n) as [->|]; [auto|]. apply G3; auto. lia.
  - destruct (nth_error p n) as [nd0|] eqn:En; [|apply nth_error_None in En; lia]. specialize (C nd0 eq_refl).
    generalize (filter_and _ _ G4 C). apply filter_imp. intros t (T1 & T2) x nd Hx Ex. destruct (Nat.eqb_spec x n) as [->|Hne].
    + rewrite En in Ex. injection Ex as <-. destruct nd0 as [r|f ops]; [exact T2|].
      erewrite map_ext_in; [exact T2|]. intros k Hk. pose proof (Hord n f ops k En Hk). cbn. destruct (Nat.eqb_spec k n); [lia|reflexivity].
    + specialize (T1 x nd). destruct nd as [r|f ops]; [apply T1; auto; lia|].
      erewrite map_ext_in; [apply T1; auto; lia|]. intros k Hk. pose proof (Hord x f ops k Ex Hk). cbn. destruct (Nat.eqb_spec k n); [lia|reflexivity].
Qed.

Lemma values_good n : (n <= length p)%nat -> exists Y dY, good n Y dY.
Proof.
  induction n as [|n IH]; intros Hn.
  - exists (fun _ _ => mkDense 0 0 []), (fun _ => mkDense 0 0 []). split; [intros; lia|]. split; [intros; lia|]. split; [intros; lia|].
    apply filter_forall. intros; lia.
  - destruct IH as (Y & dY & HGd); [lia|]. destruct (nth_error p n) as [nd|] eqn:En; [|apply nth_error_None in En; lia]. pose proof (HV n nd En) as Hv.
    destruct nd as [r|f ops].
    + pose proof (HM n r En) as Hm. destruct r.
      * eexists _, _. apply (good_step n Y dY (fun t => E t n) (V n) HGd); auto; try lia.
        -- intros R. rewrite (req_leaf n true En) in R. discriminate.
        -- intros f ops Hx. rewrite En in Hx. discriminate.
        -- intros nd' Hx. rewrite En in Hx. injection Hx as <-. now apply filter_forall.
      * destruct Hm as (Wn & Hm). eexists _, _. apply (good_step n Y dY (fun _ => v n) (build (rows (v n)) (cols (v n)) (fun _ _ => 0)) HGd); auto; try lia.
        -- apply moves_fixed. auto.
        -- rewrite En. discriminate.
        -- intros f ops Hx. rewrite En in Hx. discriminate.
        -- intros nd' Hx. rewrite En in Hx. injection Hx as <-. apply filter_forall. intros t. now rewrite Hm.
    + destruct HGd as (G1 & G2 & G3 & G4). assert (HO : forall k, In k ops -> (k < n)%nat) by (intros k Hk; eapply Hord; eauto).
      destruct (requires g n) eqn:R.
      * destruct (HC n f ops En R) as (HA & _). destruct (HA (map Y ops) (map dY ops)) as (Yn & dn & L & M & B).
        -- clear - G1 HO. induction ops as [|k ops IH]; cbn; constructor; [apply G1, HO; now left|]. apply IH. intros; apply HO; now right.
        -- unfold at_time. rewrite map_map. apply map_ext_in. intros k Hk. exact (proj1 (proj2 (G1 k (HO k Hk)))).
        -- intros k X HX HQ t. rewrite nth_error_map in HX. destruct (nth_error ops k) as [o|] eqn:Eo; [|discriminate]. injection HX as <-.
           unfold required in HQ. rewrite (nth_error_nth ops k 0%nat Eo) in HQ. destruct (G1 o) as (_ & Y0 & Q); [apply HO; eapply nth_error_In; eauto|]. now rewrite Q, Y0.
        -- assert (AT : forall t, at_time (map Y ops) t = map (fun k => Y k t) ops) by (intros t; unfold at_time; now rewrite map_map).
           assert (Y0 : Yn 0 = v n).
           { apply locally_singleton in L. rewrite AT in L. rewrite (map_ext_in _ v) in L; [congruence|]. intros k Hk. exact (proj1 (proj2 (G1 k (HO k Hk)))). }
           eexists _, _. apply (good_step n Y dY Yn dn (conj G1 (conj G2 (conj G3 G4)))); auto; try lia.
           ++ rewrite R. discriminate.
           ++ rewrite En. discriminate.
           ++ intros f' ops' Hx _ gy Wg Sg. rewrite En in Hx. injection Hx as <- <-. apply B; auto. destruct M as (_ & M & _). specialize (M 0). rewrite Y0 in M.
              destruct M as (_ & M1 & M2). destruct Sg. split; congruence.
           ++ intros nd' Hx. rewrite En in Hx. injection Hx as <-. apply (filter_imp (fun t => fwd f (at_time (map Y ops) t) = Some (Yn t))); [|exact L]. intros t Ht. now rewrite <- AT.
      * eexists _, _. apply (good_step n Y dY (fun _ => v n) (build (rows (v n)) (cols (v n)) (fun _ _ => 0)) (conj G1 (conj G2 (conj G3 G4)))); auto; try lia.
        -- apply moves_fixed. auto.
        -- rewrite En. discriminate.
        -- rewrite R. discriminate.
        -- intros nd' Hx. rewrite En in Hx. injection Hx as <-. apply filter_forall. intros t. rewrite <- Hv. f_equal. apply map_ext_in. intros k Hk.
           apply (proj2 (proj2 (G1 k (HO k Hk)))). destruct (requires g k) eqn:Rk; [|reflexivity]. rewrite (req_operand n f ops k En Hk Rk) in R. discriminate.
Qed.
End Values.

(** ** What the engine's operators hand out *)
Section Engine.
Variable env : nat -> mat.
Hypotheses (HV : computes p env v) (HW : forall x, (x < length p)%nat -> wf (v x)).

Lemma filter_positions (ops : list nat) (b : nat -> bool) :
  map (fun k => nth k ops 0%nat) (filter (fun k => b (nth k ops 0%nat)) (seq 0 (length ops))) = filter b ops.
Proof.
  assert (H : forall l1 l2, ops = l1 ++ l2 -> map (fun k => nth k ops 0%nat) (filter (fun k => b (nth k ops 0%nat)) (seq (length l1) (length l2))) = filter b l2).
  { intros l1 l2. revert l1. induction l2 as [|o l2 IH]; intros l1 Ho; [reflexivity|]. cbn [length seq filter].
    assert (N : nth (length l1) ops 0%nat = o) by (rewrite Ho, app_nth2, Nat.sub_diag by lia; reflexivity). rewrite N.
    specialize (IH (l1 ++ [o])). rewrite app_length, Nat.add_1_r, <- app_assoc in IH. specialize (IH Ho).
    destruct (b o); cbn [map]; [rewrite N, IH|rewrite IH]; reflexivity. }
  exact (H [] ops eq_refl).
Qed.
Lemma count_filter (b : nat -> bool) l t : b t = true -> count_occ Nat.eq_dec (filter b l) t = count_occ Nat.eq_dec l t.
Proof.
  intros H. induction l as [|x l IH]; [reflexivity|]. cbn. destruct (Nat.eq_dec x t) as [->|Hne].
  - rewrite H. cbn. destruct (Nat.eq_dec t t); [|contradiction]. now rewrite IH.
  - destruct (b x); cbn; [destruct (Nat.eq_dec x t); [contradiction|]|]; exact IH.
Qed.
Lemma count_zero l t : ~ In t l -> count_occ Nat.eq_dec l t = 0%nat.
Proof. apply count_occ_not_In. Qed.
Lemma filter_map_fst {B} (b : nat -> bool) (l : list (nat * B)) : map fst (filter (fun s => b (fst s)) l) = filter b (map fst l).
Proof. induction l as [|x l IH]; [reflexivity|]. cbn. destruct (b (fst x)); cbn; now rewrite IH. Qed.

(** an operator that takes part in the pass, at a gradient of the right shape *)
Lemma hands_out x f ops : nth_error p x = Some (POp f ops) -> requires g x = true -> forall gy, wf gy -> same_shape gy (v x) ->
  exists calls, bwd f (map v ops) (required g ops) gy = Some calls /\
    Permutation (map (fun s => (fst s, snd s (Some gy))) (live_sends g x)) (map (fun c => (nth (fst c) ops 0%nat, Some (snd c))) calls) /\
    Permutation (map fst calls) (filter (required g ops) (seq 0 (length ops))) /\
    (forall c, In c calls -> (fst c < length ops)%nat /\ wf (snd c) /\ same_shape (snd c) (v (nth (fst c) ops 0%nat))).
Proof.
  intros Hx R gy Wg Sg. destruct (HC x f ops Hx R) as (_ & (y & Hy & HH) & HS). pose proof (HV x _ Hx) as Hv. cbn in Hv. rewrite Hv in Hy. injection Hy as <-.
  destruct (HH gy Wg Sg) as (calls & Hb & Hc). exists calls. split; [exact Hb|]. split; [|split].
  - destruct HG as (_ & HG'). specialize (HG' x _ Hx). cbn in HG'. destruct HG' as (sends & En & _ & HP). specialize (HP R gy Wg Sg). rewrite Hb in HP.
    unfold live_sends, sends_of. rewrite En. exact HP.
  - apply (Permutation_count_occ Nat.eq_dec). intros k. rewrite Hc, map_length.
    destruct (required g ops k) eqn:Q.
    + rewrite (count_filter (required g ops) _ k Q). rewrite andb_true_r.
      pose proof (proj1 (NoDup_count_occ' Nat.eq_dec _) (seq_NoDup (length ops) 0)) as ND. destruct (Nat.ltb_spec k (length ops)) as [Hk|Hk].
      * symmetry. apply ND. apply in_seq. lia.
      * symmetry. apply count_zero. rewrite in_seq. lia.
    + rewrite andb_false_r. symmetry. apply count_zero. rewrite filter_In. intros (_ & Q'). congruence.
  - intros (k, u) Hin. destruct (HS (v x) Hv gy Wg Sg calls k u Hb Hin) as (Wu & a & Ha & Su). rewrite nth_error_map in Ha.
    destruct (nth_error ops k) as [o|] eqn:Eo; [|discriminate]. injection Ha as <-. cbn [fst snd]. split; [apply nth_error_Some; congruence|].
    rewrite (nth_error_nth ops k 0%nat Eo). auto.
Qed.

Lemma graph_well_formed : well_formed g.
Proof.
  split; [exact graph_acyclic|]. assert (HS : sends_to_operands g).
  { intros x t Ht. destruct (nth_error p x) as [[r|f ops]|] eqn:Ex.
    - destruct HG as (_ & HG'). specialize (HG' x _ Ex). cbn in HG'. unfold sends_of in Ht. rewrite HG' in Ht. destruct Ht.
    - destruct HG as (_ & HG'). specialize (HG' x _ Ex). cbn in HG'. destruct HG' as (s & En & Hs & _). unfold sends_of in Ht. unfold operands_of. rewrite En in *. auto.
    - apply nth_error_None in Ex. destruct HG as (L & _). unfold sends_of in Ht. replace (nth_error g x) with (@None (@node pgrad)) in Ht; [destruct Ht|]. symmetry. apply nth_error_None. lia. }
  split; [exact HS|]. intros x t Ht Rt. destruct (nth_error p x) as [[r|f ops]|] eqn:Ex.
  - destruct HG as (_ & HG'). specialize (HG' x _ Ex). cbn in HG'. unfold sends_of, operands_of. now rewrite HG'.
  - destruct (node_op x f ops Ex) as (_ & Eo). destruct (requires g x) eqn:Rx.
    + assert (Wx : wf (v x)) by (apply HW, nth_error_Some; congruence). set (gy := build (rows (v x)) (cols (v x)) (fun _ _ => 0)).
      destruct (fits_build (rows (v x)) (cols (v x)) (fun _ _ => 0)) as (A & B & C).
      destruct (hands_out x f ops Ex Rx gy A (conj B C)) as (calls & _ & P1 & P2 & _).
      rewrite <- (count_filter (requires g) (map fst (sends_of g x)) t Rt), <- filter_map_fst. fold (live_sends g x). rewrite Eo.
      rewrite <- (count_filter (requires g) ops t Rt), <- (filter_positions ops (requires g)).
      apply (Permutation_count_occ Nat.eq_dec).
      apply (Permutation_map fst) in P1. rewrite !map_map in P1. cbn [fst] in P1. rewrite (map_ext _ fst) in P1 by reflexivity. rewrite P1.
      apply (Permutation_map (fun k => nth k ops 0%nat)) in P2. rewrite map_map in P2. exact P2.
    + assert (N : ~ In t ops) by (intros Hin; rewrite (req_operand x f ops t Ex Hin Rt) in Rx; discriminate).
      rewrite Eo, !count_zero; auto. intros Hin. apply N. rewrite <- Eo. now apply HS.
  - apply nth_error_None in Ex. destruct HG as (L & _). unfold sends_of, operands_of. replace (nth_error g x) with (@None (@node pgrad)); [reflexivity|]. symmetry. apply nth_error_None. lia.
Qed.

(** ** Adding gradients *)
Lemma padd_sound a b x d : sound (Some a) x -> sound (Some b) x -> wf d -> same_shape d x ->
  sound (Some (padd a b)) x /\ along (Some (padd a b)) d = along (Some a) d + along (Some b) d.
Proof.
  destruct a as [a|], b as [b|]; cbn; try contradiction. intros (Wa & Sa1 & Sa2) (Wb & Sb1 & Sb2) Wd (Sd1 & Sd2).
  assert (Fa : fits a (rows x) (cols x)) by (repeat split; auto). assert (Fb : fits b (rows x) (cols x)) by (repeat split; auto).
  destruct (m_add_in_elems a b _ _ Fa Fb) as (m & -> & Em). split; [destruct Em as (? & ? & ? & _); repeat split; auto|].
  assert (Ed : elems d (rows x) (cols x) (rget d)) by (repeat split; auto).
  assert (Ea : elems a (rows x) (cols x) (rget a)) by (repeat split; auto). assert (Eb : elems b (rows x) (cols x) (rget b)) by (repeat split; auto).
  rewrite (inner_elems _ _ _ _ _ _ Em Ed), (inner_elems _ _ _ _ _ _ Ea Ed), (inner_elems _ _ _ _ _ _ Eb Ed). rewrite inner2_plus.
  unfold inner2. apply Rsum_ext. intros i Hi. apply Rsum_ext. intros j Hj. ring.
Qed.
Lemma added_sound x l : List.Forall (fun w => sound (Some w) x) l -> forall o, sound o x ->
  sound (added_in_order padd o l) x /\
  forall d, wf d -> same_shape d x -> along (added_in_order padd o l) d = along o d + lsum (fun w => along (Some w) d) l.
Proof.
  induction 1 as [|w l Hw _ IH]; intros o Ho; [split; [exact Ho|]; intros; rewrite lsum_nil; cbn; ring|].
  change (added_in_order padd o (w :: l)) with (added_in_order padd (oadd padd o (Some w)) l).
  assert (Ho' : sound (oadd padd o (Some w)) x).
  { destruct o as [a|]; [|exact Hw]. cbn [oadd]. destruct a as [a|]; [|destruct Ho]. apply (padd_sound (Some a) w x a); auto; apply Ho. }
  destruct (IH _ Ho') as (A & B). split; [exact A|]. intros d Wd Sd. rewrite (B d Wd Sd), lsum_cons.
  destruct o as [a|]; cbn [oadd]; [|cbn [along]; ring]. rewrite (proj2 (padd_sound a w x d Ho Hw Wd Sd)). ring.
Qed.

(** ** One backward pass *)
Section Pass.
Variables (m m' : @mem pgrad) (xs ys : list nat).
Hypotheses (Hready : ready g m) (Hback : backward padd pone g m xs m') (Hys : lists_reached g xs ys).
Hypothesis H0 : forall x, (x < length p)%nat -> sound (grad (m x)) (v x).

Definition from (x : nat) : option pgrad := oadd padd (grad (m x)) (seed pone g m xs x).

Lemma from_sound x : (x < length p)%nat -> sound (from x) (v x).
Proof.
  intros Hx. unfold from, seed. pose proof (H0 x Hx) as Hs. destruct (grad (m x)) as [a|] eqn:Eg.
  - exact Hs.
  - destruct (existsb (Nat.eqb x) xs && is_oper g x && is_scalar g x) eqn:B; [|exact I]. cbn.
    apply andb_prop in B. destruct B as (B & B3). apply andb_prop in B. destruct B as (_ & B2).
    destruct (op_node x B2) as (f & ops & Ex). destruct HG as (_ & HG'). specialize (HG' x _ Ex). cbn in HG'. destruct HG' as (s & En & _).
    unfold is_scalar in B3. rewrite En in B3. cbn in B3. unfold is_one in B3. apply Nat.eqb_eq in B3. pose proof (HW x Hx) as W. unfold wf in W. rewrite B3 in W.
    symmetry in W. apply Nat.eq_mul_1 in W. destruct W as (W1 & W2). split; [reflexivity|]. split; cbn; congruence.
Qed.

Lemma reached_op y : In y ys -> exists f ops, nth_error p y = Some (POp f ops) /\ requires g y = true.
Proof.
  intros Hy. apply Hys in Hy. assert (H : is_oper g y = true /\ leads_to_grad g y) by (destruct Hy; auto). destruct H as (A & B).
  destruct (op_node y A) as (f & ops & Ex). exists f, ops. split; [exact Ex|]. apply requires_spec; auto. exact graph_acyclic.
Qed.

(** the gradients y hands to x *)
Lemma sent_sound y x w : In y ys -> sound (grad (m' y)) (v y) -> forall gv, grad (m' y) = Some gv ->
  In w (gradients_sent g y gv x) -> (x < y)%nat /\ sound (Some w) (v x).
Proof.
  intros Hy Hs gv Eg Hw. destruct (reached_op y Hy) as (f & ops & Ey & Ry). rewrite Eg in Hs. destruct gv as [gy|]; [|destruct Hs]. destruct Hs as (Wg & Sg).
  destruct (hands_out y f ops Ey Ry gy Wg Sg) as (calls & _ & P & _ & HS). unfold gradients_sent in Hw. apply in_map_iff in Hw. destruct Hw as (s & <- & Hs).
  apply filter_In in Hs. destruct Hs as (Hs & Q). apply andb_prop in Q. destruct Q as (Q1 & Q2). apply Nat.eqb_eq in Q1. subst x.
  assert (Hin : In (fst s, snd s (Some gy)) (map (fun c => (nth (fst c) ops 0%nat, Some (snd c))) calls)).
  { eapply Permutation_in; [exact P|]. apply (in_map (fun s => (fst s, snd s (Some gy)))). apply filter_In. auto. }
  apply in_map_iff in Hin. destruct Hin as (c & Ec & Hc). destruct (HS c Hc) as (L & Wc & Sc). injection Ec as Ec1 Ec2. rewrite <- Ec2, <- Ec1. split.
  - apply (Hord y f ops); auto. apply nth_In. exact L.
  - split; auto.
Qed.

Lemma received x : exists order, Permutation order (gradients_received g m' ys x) /\ grad (m' x) = added_in_order padd (from x) order.
Proof. exact (grad_order padd pone g m xs m' ys x graph_well_formed Hready Hback Hys). Qed.

Lemma final_sound x : (x < length p)%nat -> sound (grad (m' x)) (v x) /\ List.Forall (fun w => sound (Some w) (v x)) (gradients_received g m' ys x).
Proof.
  remember (length p - x)%nat as k eqn:Ek. revert x Ek. induction k as [k IH] using lt_wf_ind. intros x Ek Hx.
  assert (HF : List.Forall (fun w => sound (Some w) (v x)) (gradients_received g m' ys x)).
  { apply Forall_forall. intros w Hw. unfold gradients_received in Hw. apply in_flat_map in Hw. destruct Hw as (y & Hy & Hw).
    destruct (grad (m' y)) as [gv|] eqn:Eg; [|destruct Hw].
    assert (Hxy : (x < y)%nat).
    { unfold gradients_sent in Hw. apply in_map_iff in Hw. destruct Hw as (s & _ & Hs). apply filter_In in Hs. destruct Hs as (Hs & Q). apply andb_prop in Q. destruct Q as (Q & _). apply Nat.eqb_eq in Q. subst x.
      destruct graph_well_formed as (A & B & _). apply (A y). apply B. now apply in_map. }
    destruct (reached_op y Hy) as (f & ops & Ey & _). assert (Hy' : (y < length p)%nat) by (apply nth_error_Some; congruence).
    destruct (IH (length p - y)%nat) with (x := y) as (Hs & _); auto; [lia|]. exact (proj2 (sent_sound y x w Hy Hs gv Eg Hw)). }
  split; [|exact HF]. destruct (received x) as (order & P & ->). apply added_sound; [|now apply from_sound]. eapply Permutation_Forall; [symmetry; exact P|exact HF].
Qed.

Variable dY : nat -> mat.
Hypothesis HY : forall x, (x < length p)%nat -> wf (dY x) /\ same_shape (dY x) (v x).
Hypothesis HB : forall x f ops, nth_error p x = Some (POp f ops) -> requires g x = true -> forall gy, wf gy -> same_shape gy (v x) ->
     exists calls, bwd f (map v ops) (required g ops) gy = Some calls /\ work calls (map dY ops) = inner gy (dY x).

Definition handed (y x : nat) : R :=
  match grad (m' y) with
  | Some gv => lsum (fun s => if (fst s =? x)%nat && requires g x then along (Some (snd s gv)) (dY x) else 0) (sends_of g y)
  | None => 0
  end.

Lemma node_balance x : (x < length p)%nat -> along (grad (m' x)) (dY x) = along (from x) (dY x) + lsum (fun y => handed y x) ys.
Proof.
  intros Hx. destruct (final_sound x Hx) as (_ & HF). destruct (received x) as (order & P & ->).
  destruct (added_sound (v x) order) with (o := from x) as (_ & A); [eapply Permutation_Forall; [symmetry; exact P|exact HF]|now apply from_sound|].
  destruct (HY x Hx) as (Wd & Sd). rewrite (A (dY x) Wd Sd). f_equal. rewrite (lsum_perm _ _ _ P). unfold gradients_received. rewrite lsum_flat_map.
  apply lsum_ext. intros y _. unfold handed. destruct (grad (m' y)) as [gv|]; [|reflexivity]. unfold gradients_sent. rewrite lsum_map, lsum_filter. reflexivity.
Qed.

Lemma operator_balance y : In y ys -> lsum (fun x => handed y x) (filter (requires g) (seq 0 (length p))) = along (grad (m' y)) (dY y).
Proof.
  intros Hy. destruct (reached_op y Hy) as (f & ops & Ey & Ry). assert (Hy' : (y < length p)%nat) by (apply nth_error_Some; congruence).
  destruct (final_sound y Hy') as (Hs & _). unfold handed. destruct (grad (m' y)) as [[gy|]|]; [|destruct Hs|apply lsum_0; reflexivity]. destruct Hs as (Wg & Sg).
  destruct (hands_out y f ops Ey Ry gy Wg Sg) as (calls & Hb & P & _ & HS). destruct (HB y f ops Ey Ry gy Wg Sg) as (calls' & Hb' & Hwk).
  rewrite Hb in Hb'. injection Hb' as <-. cbn [along]. rewrite <- Hwk.
  rewrite (lsum_swap (fun x s => if (fst s =? x)%nat && requires g x then along (Some (snd s (Some gy))) (dY x) else 0)).
  transitivity (lsum (fun s => along (Some (snd s)) (dY (fst s))) (map (fun s => (fst s, snd s (Some gy))) (live_sends g y))).
  - rewrite lsum_map. unfold live_sends. rewrite lsum_filter. apply lsum_ext. intros s Hs. cbn [fst snd].
    assert (L : (fst s < length p)%nat).
    { destruct graph_well_formed as (A & B & _). assert (fst s < y)%nat; [|lia]. apply (A y). apply B. now apply in_map. }
    destruct s as (k, h). cbn [fst snd] in L |- *. change (fst (k, h)) with k. destruct (requires g k) eqn:Q.
    + rewrite <- (lsum_pick k (along (Some (h (Some gy))) (dY k)) (filter (requires g) (seq 0 (length p)))).
      * apply lsum_ext. intros x Hx. apply filter_In in Hx. destruct Hx as (_ & Rx). rewrite Rx, andb_true_r. destruct (Nat.eqb_spec k x) as [->|]; reflexivity.
      * apply NoDup_filter, seq_NoDup.
      * apply filter_In. split; [apply in_seq; lia|exact Q].
    + apply lsum_0. intros x Hx. apply filter_In in Hx. destruct Hx as (_ & Rx). destruct (Nat.eqb_spec k x) as [<-|]; [congruence|reflexivity].
  - rewrite (lsum_perm _ _ _ P), lsum_map. unfold work. cbn [fst snd along]. clear - HS. induction calls as [|c calls IH]; [reflexivity|]. rewrite lsum_cons. cbn [fold_right].
    rewrite IH by (intros c' Hc'; apply HS; now right). f_equal. f_equal. destruct (HS c (or_introl eq_refl)) as (L & _).
    rewrite (nth_indep _ _ (dY 0%nat)) by (rewrite map_length; exact L). now rewrite map_nth.
Qed.

Lemma in_list_spec (x : nat) l : existsb (Nat.eqb x) l = true <-> In x l.
Proof. rewrite existsb_exists. split; [intros (y & H & E); apply Nat.eqb_eq in E; now subst|intros H; exists x; rewrite Nat.eqb_refl; auto]. Qed.

Lemma pass_balance : lsum (fun x => along (grad (m' x)) (dY x)) (leaves p) =
  lsum (fun x => along (grad (m x)) (dY x)) (leaves p) + lsum (fun y => along (from y) (dY y)) ys.
Proof.
  set (N := filter (requires g) (seq 0 (length p))). set (T := fun x => along (grad (m' x)) (dY x)). set (S0 := fun x => along (from x) (dY x)).
  assert (HN : forall x, In x N <-> (x < length p)%nat /\ requires g x = true) by (intros x; unfold N; rewrite filter_In, in_seq; intuition lia).
  assert (E1 : lsum T N = lsum S0 N + lsum T ys).
  { transitivity (lsum (fun x => S0 x + lsum (fun y => handed y x) ys) N); [apply lsum_ext; intros x Hx; apply node_balance; now apply HN|].
    rewrite lsum_plus. f_equal. rewrite (lsum_swap (fun x y => handed y x)). apply lsum_ext. intros y Hy. now apply operator_balance. }
  assert (Split : forall F, lsum F N = lsum F (leaves p) + lsum F ys + lsum F (filter (fun x => is_oper g x && negb (existsb (Nat.eqb x) ys)) N)).
  { intros F. transitivity (lsum F (leaves p ++ ys ++ filter (fun x => is_oper g x && negb (existsb (Nat.eqb x) ys)) N)); [|rewrite !lsum_app; ring].
    apply lsum_perm. apply NoDup_Permutation.
    - apply NoDup_filter, seq_NoDup.
    - assert (HL : forall x, In x (leaves p) -> is_oper g x = false).
      { intros x Hx. apply filter_In in Hx. destruct Hx as (_ & Hx). destruct (nth_error p x) as [[[]|]|] eqn:Ex; try discriminate. exact (proj1 (node_var x true Ex)). }
      assert (HO : forall y, In y ys -> is_oper g y = true) by (intros y Hy; destruct (reached_op y Hy) as (f & ops & Ey & _); exact (proj1 (node_op y f ops Ey))).
      assert (D1 : NoDup (leaves p)) by (apply NoDup_filter, seq_NoDup). assert (D2 : NoDup ys) by apply Hys.
      assert (D3 : NoDup (filter (fun x => is_oper g x && negb (existsb (Nat.eqb x) ys)) N)) by (apply NoDup_filter, NoDup_filter, seq_NoDup).
      apply NoDup_app'; [exact D1| |].
      + apply NoDup_app'; auto. intros x Hx Hx'. apply filter_In in Hx'. destruct Hx' as (_ & Q). apply andb_prop in Q. destruct Q as (_ & Q).
        rewrite (proj2 (in_list_spec x ys) Hx) in Q. discriminate.
      + intros x Hx Hx'. apply HL in Hx. apply in_app_or in Hx'. destruct Hx' as [Hx'|Hx']; [rewrite (HO x Hx') in Hx; discriminate|].
        apply filter_In in Hx'. destruct Hx' as (_ & Q). rewrite Hx in Q. discriminate.
    - intros x. split.
      + intros Hx. rewrite in_app_iff, in_app_iff. destruct (nth_error p x) as [[r|f ops]|] eqn:Ex.
        * left. apply HN in Hx. destruct Hx as (L & R). rewrite (req_leaf x r Ex) in R. subst r. apply filter_In. split; [apply in_seq; lia|now rewrite Ex].
        * right. destruct (existsb (Nat.eqb x) ys) eqn:B; [left; now apply in_list_spec|]. right. apply filter_In. split; [exact Hx|]. rewrite (proj1 (node_op x f ops Ex)), B. reflexivity.
        * apply nth_error_None in Ex. apply HN in Hx. lia.
      + rewrite in_app_iff, in_app_iff. intros [Hx|[Hx|Hx]].
        * apply filter_In in Hx. destruct Hx as (Hx & Q). apply in_seq in Hx. destruct (nth_error p x) as [[[]|]|] eqn:Ex; try discriminate. apply HN. split; [lia|]. exact (req_leaf x true Ex).
        * destruct (reached_op x Hx) as (f & ops & Ey & R). apply HN. split; [apply nth_error_Some; congruence|exact R].
        * now apply filter_In in Hx. }
  assert (EU : forall x, In x (filter (fun x => is_oper g x && negb (existsb (Nat.eqb x) ys)) N) -> T x = S0 x).
  { intros x Hx. apply filter_In in Hx. destruct Hx as (Hx & Q). apply andb_prop in Q. destruct Q as (Q1 & Q2). apply HN in Hx. destruct Hx as (L & R).
    unfold T. rewrite (node_balance x L). fold (S0 x). rewrite (lsum_0 (fun y => handed y x)); [ring|]. intros y Hy. unfold handed. destruct (grad (m' y)) as [gv|]; [|reflexivity].
    apply lsum_0. intros s Hs. destruct (Nat.eqb_spec (fst s) x) as [Es|]; [|reflexivity]. exfalso.
    assert (Hr : reached g xs x).
    { apply (reach_operand g xs y x); [now apply Hys| |exact Q1|apply requires_spec; auto; exact graph_acyclic].
      destruct graph_well_formed as (_ & B & _). apply B. rewrite <- Es. now apply in_map. }
    apply Hys in Hr. apply in_list_spec in Hr. rewrite Hr in Q2. discriminate. }
  rewrite (Split T), (Split S0), (lsum_ext _ _ _ EU) in E1.
  assert (EL : lsum S0 (leaves p) = lsum (fun x => along (grad (m x)) (dY x)) (leaves p)).
  { apply lsum_ext. intros x Hx. unfold S0, from, seed. apply filter_In in Hx. destruct Hx as (_ & Q). destruct (nth_error p x) as [[[]|]|] eqn:Ex; try discriminate.
    rewrite (proj1 (node_var x true Ex)), andb_false_r. cbn [andb]. destruct (grad (m x)) as [a|]; reflexivity. }
  rewrite EL in E1. fold T. fold S0. lra.
Qed.
End Pass.
End Engine.
End Diff.

Lemma computes_unique p env v v' : ordered p -> computes p env v -> computes p env v' -> forall x, (x < length p)%nat -> v x = v' x.
Proof.
  intros Ho H H' x. induction x as [x IH] using lt_wf_ind. intros Hx. destruct (nth_error p x) as [nd|] eqn:Ex; [|apply nth_error_None in Ex; lia].
  pose proof (H x nd Ex) as A. pose proof (H' x nd Ex) as B. destruct nd as [r|f ops]; [congruence|]. cbn in A, B.
  rewrite (map_ext_in v v') in A; [congruence|]. intros k Hk. pose proof (Ho x f ops k Ex Hk). apply IH; lia.
Qed.

(** ** The theorems *)
Lemma lsum_sum_over l f : lsum f l = sum_over l f. Proof. reflexivity. Qed.
Lemma sum_over_derive l (f : nat -> R -> R) (d : nat -> R) :
  (forall y, In y l -> is_derive (f y) 0 (d y)) -> is_derive (fun t => sum_over l (fun y => f y t)) 0 (sum_over l d).
Proof.
  induction l as [|y l IH]; intros H; [exact (d_const 0 0)|].
  change (is_derive (fun t => f y t + sum_over l (fun y => f y t)) 0 (d y + sum_over l d)).
  apply @is_derive_plus; [apply H; now left|apply IH; intros; apply H; now right].
Qed.

Section Main.
Variables (p : program) (E : R -> nat -> mat) (V v : nat -> mat) (g : @graph pgrad) (m : @mem pgrad) (xs : list nat) (m' : @mem pgrad) (ys : list nat).
Hypotheses (Hord : ordered p) (HV : computes p (E 0) v) (HW : forall x, (x < length p)%nat -> wf (v x))
  (HG : engine_graph p v g) (HC : all_correct p v g) (HM : leaves_move p E V)
  (Hready : ready g m) (H0 : forall x, (x < length p)%nat -> sound (grad (m x)) (v x))
  (Hback : backward padd pone g m xs m') (Hys : lists_reached g xs ys).

Lemma backward_derivative_strong :
  (forall x, (x < length p)%nat -> sound (grad (m' x)) (v x)) /\
  exists Y, locally 0 (fun t => computes p (E t) (fun x => Y x t)) /\
    (forall x, (x < length p)%nat -> requires g x = false -> forall t, Y x t = v x) /\
    is_derive (fun t => sum_over ys (fun y => along (oadd padd (grad (m y)) (seed pone g m xs y)) (Y y t))) 0
      (sum_over (leaves p) (fun x => along (grad (m' x)) (V x)) - sum_over (leaves p) (fun x => along (grad (m x)) (V x))).
Proof.
  split; [intros x Hx; exact (proj1 (final_sound p v g Hord HG HC (E 0) HV HW m m' xs ys Hready Hback Hys H0 x Hx))|].
  destruct (values_good p v g Hord HG HC E V HV HW HM (length p) (Nat.le_refl _)) as (Y & dY & G1 & G2 & G3 & G4).
  assert (HY : forall x, (x < length p)%nat -> wf (dY x) /\ same_shape (dY x) (v x)).
  { intros x Hx. destruct (G1 x Hx) as ((Wd & M & _) & Y0 & _). split; [exact Wd|]. destruct (M 0) as (_ & A & B). rewrite Y0 in A, B. split; congruence. }
  assert (Lt : forall x nd, nth_error p x = Some nd -> (x < length p)%nat) by (intros x nd Hx; apply nth_error_Some; congruence).
  exists Y. split; [|split].
  - revert G4. apply filter_imp. intros t Ht x nd Hx. specialize (Ht x nd (Lt x nd Hx) Hx). destruct nd; exact Ht.
  - intros x Hx R. apply (G1 x Hx). exact R.
  - pose proof (pass_balance p v g Hord HG HC (E 0) HV HW m m' xs ys Hready Hback Hys H0 dY HY (fun x f ops Hx => G3 x f ops (Lt x _ Hx) Hx)) as B.
    assert (EQ : forall M : @mem pgrad, lsum (fun x => along (grad (M x)) (dY x)) (leaves p) = sum_over (leaves p) (fun x => along (grad (M x)) (V x))).
    { intros M. rewrite <- lsum_sum_over. apply lsum_ext. intros x Hx. apply filter_In in Hx. destruct Hx as (Hx & Q). apply in_seq in Hx.
      destruct (nth_error p x) as [[[]|]|] eqn:Ex; try discriminate. rewrite (G2 x); auto. lia. }
    rewrite !EQ in B. match goal with |- is_derive _ _ ?d => replace d with (sum_over ys (fun y => along (from g m xs y) (dY y))) by (rewrite <- lsum_sum_over; lra) end.
    apply (sum_over_derive ys (fun y t => along (from g m xs y) (Y y t))). intros y Hy.
    destruct (reached_op p v g Hord HG xs ys Hys y Hy) as (f & ops & Ey & _). pose proof (Lt y _ Ey) as Ly.
    pose proof (from_sound p v g HG HW m xs H0 y Ly) as Hf. destruct (from g m xs y) as [[u|]|]; [|destruct Hf|exact (d_const 0 0)].
    destruct Hf as (Wu & Su). cbn [along]. apply inner_moves; auto; [apply (G1 y Ly)|]. destruct (HY y Ly) as (_ & A & B'). destruct Su. split; congruence.
Qed.
End Main.

Lemma backward_derivative p E V v g m xs m' ys :
  ordered p -> computes p (E 0) v -> (forall x, (x < length p)%nat -> wf (v x)) -> engine_graph p v g -> all_correct p v g -> leaves_move p E V ->
  ready g m -> (forall x, (x < length p)%nat -> sound (grad (m x)) (v x)) -> backward padd pone g m xs m' -> lists_reached g xs ys ->
  (forall x, (x < length p)%nat -> sound (grad (m' x)) (v x)) /\
  exists Y, locally 0 (fun t => computes p (E t) (fun x => Y x t)) /\
    is_derive (fun t => sum_over ys (fun y => along (oadd padd (grad (m y)) (seed pone g m xs y)) (Y y t))) 0
      (sum_over (leaves p) (fun x => along (grad (m' x)) (V x)) - sum_over (leaves p) (fun x => along (grad (m x)) (V x))).
Proof.
  intros. destruct (backward_derivative_strong p E V v g m xs m' ys) as (A & Y & B & _ & D); auto. split; [exact A|]. exists Y. auto.
Qed.

Lemma scalar_derivative p E V v g m r m' :
  ordered p -> computes p (E 0) v -> (forall x, (x < length p)%nat -> wf (v x)) -> engine_graph p v g -> all_correct p v g -> leaves_move p E V ->
  ready g m -> (forall x, grad (m x) = None) -> is_oper g r = true -> is_one (v r) = true -> backward padd pone g m [r] m' ->
  (forall x, (x < length p)%nat -> sound (grad (m' x)) (v x)) /\
  exists Y, locally 0 (fun t => computes p (E t) (fun x => Y x t)) /\
    is_derive (fun t => rget (Y r t) 0 0) 0 (sum_over (leaves p) (fun x => along (grad (m' x)) (V x))).
Proof.
  intros Hord HV HW HG HC HM Hr H0 Hop H1 Hb. assert (AC : acyclic g) by (eapply graph_acyclic; eauto). destruct (reached_listable g [r] AC) as (ys & Hys).
  destruct (backward_derivative_strong p E V v g m [r] m' ys) as (A & Y & B & K & D); auto; [intros; now rewrite H0|].
  split; [exact A|]. exists Y. split; [exact B|].
  replace (sum_over (leaves p) (fun x => along (grad (m x)) (V x))) with 0 in D by (symmetry; rewrite <- lsum_sum_over; apply lsum_0; intros; now rewrite H0).
  rewrite Rminus_0_r in D. assert (SC : is_scalar g r = true).
  { destruct (op_node p v g HG r Hop) as (f & ops & Ex). destruct HG as (_ & HG'). specialize (HG' r _ Ex). cbn in HG'. destruct HG' as (s & En & _). unfold is_scalar. rewrite En. exact H1. }
  assert (Lr : (r < length p)%nat) by (destruct (op_node p v g HG r Hop) as (f & ops & Ex); apply nth_error_Some; congruence).
  destruct (requires g r) eqn:R.
  - assert (Hin : In r ys) by (apply Hys, reach_root; [now left|exact Hop|apply requires_spec; auto]).
    eapply is_derive_ext; [|exact D]. intros t. cbn beta. rewrite <- lsum_sum_over.
    transitivity (lsum (fun y => if (r =? y)%nat then rget (Y r t) 0 0 else 0) ys); [|apply lsum_pick; [apply Hys|exact Hin]].
    apply lsum_ext. intros y _. rewrite H0. unfold seed. rewrite H0. destruct (Nat.eqb_spec r y) as [<-|Hne].
    + cbn [existsb]. rewrite Nat.eqb_refl, Hop, SC. cbn [orb andb oadd along pone].
      unfold pone. cbn [along]. unfold inner. cbn. unfold Rsum, rget. cbn. ring.
    + replace (existsb (Nat.eqb y) [r]) with false; [reflexivity|]. cbn. destruct (Nat.eqb_spec y r); [congruence|reflexivity].
  - assert (NE : ys = []).
    { destruct ys as [|y ys]; [reflexivity|]. exfalso. assert (Hy : reached g [r] y) by (apply Hys; now left). clear - Hy R AC.
      assert (X : requires g r = true); [|congruence]. induction Hy as [x Hx Ho Hl|]; [|auto]. destruct Hx as [<-|[]]. apply requires_spec; auto. }
    subst ys. apply (is_derive_ext (fun _ => rget (v r) 0 0)); [intros t; now rewrite K|]. cbn in D.
    replace (sum_over (leaves p) (fun x => along (grad (m' x)) (V x))) with 0; [apply d_const|].
    symmetry. etransitivity; [symmetry; apply is_derive_unique; exact D|]. apply is_derive_unique. apply d_const.
Qed.

Lemma bump_build env l i j t : wf (env l) -> (j < cols (env l))%nat ->
  bump env l i j t l = build (rows (env l)) (cols (env l)) (fun a b => rget (env l) a b + if (a =? i)%nat && (b =? j)%nat then t else 0).
Proof.
  intros W Hj. unfold bump. rewrite Nat.eqb_refl. apply (mat_ext _ _ (rows (env l)) (cols (env l)) (fun a b => rget (env l) a b + if (a =? i)%nat && (b =? j)%nat then t else 0) (fun a b => rget (env l) a b + if (a =? i)%nat && (b =? j)%nat then t else 0)); [|apply build_elems|reflexivity].
  assert (W' : wf (mkDense (rows (env l)) (cols (env l)) (map (fun k => nth k (data (env l)) 0 + (if (k =? i * cols (env l) + j)%nat then t else 0)) (seq 0 (length (data (env l))))))) by (unfold wf; cbn; rewrite map_length, seq_length; exact W).
  split; [exact W'|]. split; [reflexivity|]. split; [reflexivity|]. intros a b Ha Hb.
  rewrite rget_nth by auto. cbn [data cols]. rewrite (nth_indep _ 0 (nth 0 (data (env l)) 0 + (if (0 =? i * cols (env l) + j)%nat then t else 0))) by (rewrite map_length, seq_length, W; nia).
  rewrite (map_nth (fun k => nth k (data (env l)) 0 + (if (k =? i * cols (env l) + j)%nat then t else 0))). rewrite seq_nth by (rewrite W; nia). cbn [Nat.add].
  rewrite rget_nth by auto. f_equal. destruct (Nat.eqb_spec a i) as [->|Ha']; [destruct (Nat.eqb_spec b j) as [->|Hb']|]; cbn [andb].
  - now rewrite Nat.eqb_refl.
  - destruct (Nat.eqb_spec (i * cols (env l) + b) (i * cols (env l) + j)); [lia|reflexivity].
  - destruct (Nat.eqb_spec (a * cols (env l) + b) (i * cols (env l) + j)) as [Q|]; [|reflexivity]. exfalso. apply Ha'.
    rewrite (Nat.mul_comm a), (Nat.mul_comm i) in Q. apply Nat.div_mod_unique in Q; lia.
Qed.

Lemma Rsum_single n f k : (k < n)%nat -> (forall a, (a < n)%nat -> a <> k -> f a = 0) -> Rsum n f = f k.
Proof.
  intros Hk H. rewrite <- (Rsum_delta n k f Hk). apply Rsum_ext. intros a Ha. destruct (Nat.eqb_spec a k) as [->|]; [reflexivity|auto].
Qed.
Lemma partial_derivative p env v g m r m' l i j :
  ordered p -> computes p env v -> (forall x, (x < length p)%nat -> wf (v x)) -> engine_graph p v g -> all_correct p v g ->
  ready g m -> (forall x, grad (m x) = None) -> is_oper g r = true -> is_one (v r) = true -> backward padd pone g m [r] m' ->
  nth_error p l = Some (PVar true) -> (i < rows (v l))%nat -> (j < cols (v l))%nat ->
  exists Y, locally 0 (fun t => computes p (bump env l i j t) (fun x => Y x t)) /\
    is_derive (fun t => rget (Y r t) 0 0) 0 (grad_entry (grad (m' l)) i j).
Proof.
  intros Hord HV HW HG HC Hr H0 Hop H1 Hb Hl Hi Hj. assert (Ll : (l < length p)%nat) by (apply nth_error_Some; congruence).
  assert (El : env l = v l) by (symmetry; exact (HV l _ Hl)). assert (Wl : wf (env l)) by (rewrite El; auto).
  assert (BB : forall t, bump env l i j t l = build (rows (env l)) (cols (env l)) (fun a b => rget (env l) a b + if (a =? i)%nat && (b =? j)%nat then t else 0)) by (intros t; apply bump_build; [auto|congruence]).
  assert (BO : forall t x, x <> l -> bump env l i j t x = env x) by (intros t x Hx; unfold bump; destruct (Nat.eqb_spec x l); [contradiction|reflexivity]).
  assert (B0 : forall x, bump env l i j 0 x = env x).
  { intros x. destruct (Nat.eq_dec x l) as [->|Hx]; [|auto]. rewrite BB. apply (mat_ext _ _ (rows (env l)) (cols (env l)) (fun a b => rget (env l) a b + if (a =? i)%nat && (b =? j)%nat then 0 else 0) (rget (env l))); [apply build_elems|now apply elems_self|].
    intros a b _ _. destruct (_ && _); ring. }
  set (V := fun x => if (x =? l)%nat then build (rows (v l)) (cols (v l)) (fun a b => if (a =? i)%nat && (b =? j)%nat then 1 else 0) else build (rows (v x)) (cols (v x)) (fun _ _ => 0)).
  destruct (scalar_derivative p (bump env l i j) V v g m r m') as (A & Y & B & D); auto.
  - intros x nd Hx. specialize (HV x nd Hx). destruct nd; [now rewrite B0|exact HV].
  - intros x q Hx. assert (Lx : (x < length p)%nat) by (apply nth_error_Some; congruence). destruct (Nat.eq_dec x l) as [->|Hne].
    + rewrite Hl in Hx. injection Hx as <-. unfold V. rewrite Nat.eqb_refl. rewrite <- El.
      destruct (fits_build (rows (env l)) (cols (env l)) (fun a b => if (a =? i)%nat && (b =? j)%nat then 1 else 0)) as (F1 & F2 & F3).
      split; [exact F1|]. split; [intros t; rewrite BB; destruct (fits_build (rows (env l)) (cols (env l)) (fun a b => rget (env l) a b + if (a =? i)%nat && (b =? j)%nat then t else 0)) as (G1 & G2 & G3); split; [exact G1|split; congruence]|].
      rewrite F2, F3. intros a b Ha Hb'. rewrite rget_build by auto.
      apply (is_derive_ext (fun t => rget (env l) a b + (if (a =? i)%nat && (b =? j)%nat then t else 0))); [intros t; rewrite BB, rget_build by auto; reflexivity|].
      destruct (_ && _); auto_derive; auto; ring.
    + rewrite B0. assert (Ex : env x = v x) by (symmetry; exact (HV x _ Hx)). destruct q; [|split; [rewrite Ex; auto|intros t; rewrite BO; auto]].
      unfold V. destruct (Nat.eqb_spec x l); [contradiction|]. rewrite <- Ex.
      pose proof (moves_fixed (env x)) as MF. destruct MF as (M1 & M2 & M3); [rewrite Ex; auto|]. split; [exact M1|]. split; [intros t; rewrite BO by auto; apply (M2 t)|].
      intros a b Ha Hb'. apply (is_derive_ext (fun _ => rget (env x) a b)); [intros t; now rewrite BO|]. now apply M3.
  - exists Y. split; [exact B|]. replace (grad_entry (grad (m' l)) i j) with (sum_over (leaves p) (fun x => along (grad (m' x)) (V x))); [exact D|].
    rewrite <- lsum_sum_over. transitivity (lsum (fun x => if (l =? x)%nat then grad_entry (grad (m' l)) i j else 0) (leaves p)).
    + apply lsum_ext. intros x Hx. apply filter_In in Hx. destruct Hx as (Hx & _). apply in_seq in Hx. pose proof (A x) as Sx. destruct (Nat.eqb_spec l x) as [<-|Hne].
      * specialize (Sx Ll). destruct (grad (m' l)) as [[u|]|]; cbn; auto. unfold V. rewrite Nat.eqb_refl. destruct Sx as (Wu & Su1 & Su2).
        assert (Eu : elems u (rows (v l)) (cols (v l)) (rget u)) by (repeat split; auto).
        rewrite (inner_elems _ _ _ _ _ _ Eu (build_elems _ _ _)). unfold inner2.
        rewrite (Rsum_single _ _ i Hi) by (intros a Ha Hne; apply Rsum_0; intros b _; destruct (Nat.eqb_spec a i); [congruence|]; cbn; ring).
        rewrite (Rsum_single _ _ j Hj) by (intros b Hb' Hne; destruct (Nat.eqb_spec b j); [congruence|]; rewrite andb_false_r; ring).
        rewrite !Nat.eqb_refl. cbn. ring.
      * destruct (grad (m' x)) as [[u|]|]; cbn; auto. specialize (Sx ltac:(lia)). unfold V. destruct (Nat.eqb_spec x l); [congruence|]. destruct Sx as (Wu & Su1 & Su2).
        assert (Eu : elems u (rows (v x)) (cols (v x)) (rget u)) by (repeat split; auto).
        rewrite (inner_elems _ _ _ _ _ _ Eu (build_elems _ _ _)). unfold inner2. apply Rsum_0. intros a _. apply Rsum_0. intros b _. ring.
    + apply lsum_pick; [apply NoDup_filter, seq_NoDup|]. apply filter_In. split; [apply in_seq; lia|now rewrite Hl].
Qed.

(** ** The graph of a program exists *)
Definition alike (a b : @node pgrad) : Prop :=
  match nkind a, nkind b with Leaf r, Leaf r' => r = r' | Oper o _, Oper o' _ => o = o' | _, _ => False end.
Lemma req_alike g g' : Forall2 alike g g' -> req_list g = req_list g'.
Proof.
  intros H. unfold req_list. generalize (@nil bool) as acc. induction H as [|a b g g' Hab _ IH]; intros acc; [reflexivity|]. cbn [fold_left].
  replace (req_step acc b) with (req_step acc a); [apply IH|]. unfold req_step, alike in *. destruct (nkind a), (nkind b); try contradiction; now subst.
Qed.
Lemma Forall2_nth {A B} (P : A -> B -> Prop) l l' : length l = length l' -> (forall n a b, nth_error l n = Some a -> nth_error l' n = Some b -> P a b) -> Forall2 P l l'.
Proof.
  revert l'. induction l as [|a l IH]; intros [|b l'] L H; try discriminate; constructor; [apply (H 0%nat); reflexivity|]. apply IH; [now injection L|]. intros n. exact (H (S n)).
Qed.
Lemma nth_compile p v x nd : nth_error p x = Some nd -> nth_error (compile p v) x = Some (compile_node p v x).
Proof.
  intros H. assert (L : (x < length p)%nat) by (apply nth_error_Some; congruence). unfold compile.
  apply map_nth_error. rewrite (nth_error_nth' _ 0%nat) by (rewrite seq_length; lia). now rewrite seq_nth by lia.
Qed.
Lemma compile_requires p v x : requires (compile p v) x = requires (skeleton p) x.
Proof.
  unfold requires. f_equal. apply req_alike. apply Forall2_nth; [unfold compile, skeleton; now rewrite !map_length, seq_length|].
  intros n a b Ha Hb. unfold skeleton in Hb. rewrite nth_error_map in Hb. destruct (nth_error p n) as [nd|] eqn:En; [|discriminate]. injection Hb as <-.
  rewrite (nth_compile p v n nd En) in Ha. injection Ha as <-. unfold compile_node. rewrite (nth_error_nth p n (PVar false) En). destruct nd; reflexivity.
Qed.
Lemma filter_map_comm {A B} (b : B -> bool) (f : A -> B) l : filter b (map f l) = map f (filter (fun x => b (f x)) l).
Proof. induction l as [|x l IH]; [reflexivity|]. cbn. destruct (b (f x)); cbn; now rewrite IH. Qed.
Lemma find_fst (calls : list (nat * mat)) c : NoDup (map fst calls) -> In c calls -> find (fun c' => (fst c' =? fst c)%nat) calls = Some c.
Proof.
  induction calls as [|a calls IH]; intros HN Hin; [destruct Hin|]. cbn in HN. inversion_clear HN as [|? ? Hx HN']. cbn. destruct Hin as [->|Hin]; [now rewrite Nat.eqb_refl|].
  destruct (Nat.eqb_spec (fst a) (fst c)) as [E|]; [|auto]. exfalso. apply Hx. rewrite E. now apply in_map.
Qed.

Lemma compile_graph p env v : computes p env v -> ordered p -> all_correct p v (compile p v) -> engine_graph p v (compile p v).
Proof.
  intros HV Ho HC. split; [unfold compile; now rewrite map_length, seq_length|]. intros x nd Hx. pose proof (nth_compile p v x nd Hx) as En. unfold compile_node in En.
  rewrite (nth_error_nth p x (PVar false) Hx) in En. destruct nd as [r|f ops]; [exact En|]. eexists. split; [exact En|]. split.
  - intros t Ht. rewrite map_map in Ht. apply in_map_iff in Ht. destruct Ht as (k & <- & Hk). apply in_seq in Hk. cbn. apply nth_In. lia.
  - intros R gy Wg Sg. cbv zeta.
    assert (RQ : forall k, required (skeleton p) ops k = required (compile p v) ops k) by (intros k; unfold required; now rewrite compile_requires).
    destruct (HC x f ops Hx R) as (_ & (y & Hy & HH) & HS). pose proof (HV x _ Hx) as Hv. cbn in Hv. rewrite Hv in Hy. injection Hy as <-.
    destruct (HH gy Wg Sg) as (calls & Hb & Hc). rewrite Hb.
    assert (EQ : forall k, snd (send_of f ops v (required (skeleton p) ops) k) (Some gy) = option_map snd (find (fun c => (fst c =? k)%nat) calls)).
    { intros k. cbn. replace (required (skeleton p) ops) with (required (compile p v) ops); [now rewrite Hb|]. apply functional_extensionality. intros. symmetry. apply RQ. }
    assert (P : Permutation (map fst calls) (filter (required (compile p v) ops) (seq 0 (length ops)))).
    { apply (Permutation_count_occ Nat.eq_dec). intros k. rewrite Hc, map_length. destruct (required (compile p v) ops k) eqn:Q.
      - rewrite (count_filter (required (compile p v) ops) _ k Q), andb_true_r.
        pose proof (proj1 (NoDup_count_occ' Nat.eq_dec _) (seq_NoDup (length ops) 0)) as ND. destruct (Nat.ltb_spec k (length ops)) as [Hk|Hk].
        + symmetry. apply ND. apply in_seq. lia.
        + symmetry. apply count_zero. rewrite in_seq. lia.
      - rewrite andb_false_r. symmetry. apply count_zero. rewrite filter_In. intros (_ & Q'). congruence. }
    assert (ND : NoDup (map fst calls)) by (eapply Permutation_NoDup; [symmetry; exact P|apply NoDup_filter, seq_NoDup]).
    change (fun s => requires (compile p v) (fst s)) with (fun s : nat * (pgrad -> pgrad) => requires (compile p v) (fst s)). rewrite filter_map_comm.
    change (fun k => requires (compile p v) (fst (send_of f ops v (required (skeleton p) ops) k))) with (required (compile p v) ops). rewrite map_map.
    rewrite (map_ext _ (fun k => (nth k ops 0%nat, option_map snd (find (fun c => (fst c =? k)%nat) calls)))) by (intros k; now rewrite EQ).
    rewrite <- P, map_map. apply Permutation_refl'. apply map_ext_in. intros c Hin. cbn. now rewrite (find_fst calls c ND Hin).
Qed.
