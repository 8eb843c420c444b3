(** * How many words NormFloat64 accepts without a test *)
From Coq Require Import List ZArith Lia Bool.
From Verif Require Import RandModel GaussTables GaussModel GaussSpec GaussTab.
Import ListNotations.
Open Scope Z_scope.

Definition zseq (lo : Z) (n : nat) : list Z := map (fun k => lo + Z.of_nat k) (seq 0 n).
Lemma in_zseq lo n t : In t (zseq lo n) <-> lo <= t < lo + Z.of_nat n.
Proof.
  unfold zseq. rewrite in_map_iff. split.
  - intros (k & <- & K). apply in_seq in K. lia.
  - intros H. exists (Z.to_nat (t - lo)). split; [lia|]. apply in_seq. lia.
Qed.
Lemma nodup_map {A B} (f : A -> B) l : (forall x y, In x l -> In y l -> f x = f y -> x = y) -> NoDup l -> NoDup (map f l).
Proof.
  intros I H. induction H as [|a l N H IH]; cbn; constructor.
  - intros K. apply in_map_iff in K as (b & E & K). assert (b = a) by (apply I; [now right|now left|exact E]). now subst.
  - apply IH. intros x y X Y. apply I; now right.
Qed.
Lemma nodup_app {A} (l k : list A) : NoDup l -> NoDup k -> (forall x, In x l -> In x k -> False) -> NoDup (l ++ k).
Proof.
  intros Hl Hk D. induction Hl as [|a l N H IH]; cbn; [exact Hk|]. constructor.
  - intros K. apply in_app_or in K as [K|K]; [now apply N|apply (D a); [now left|exact K]].
  - apply IH. intros x X. apply D. now right.
Qed.
Lemma nodup_flat_map {A B} (f : A -> list B) l : NoDup l -> (forall a, In a l -> NoDup (f a)) ->
  (forall a b x, In a l -> In b l -> In x (f a) -> In x (f b) -> a = b) -> NoDup (flat_map f l).
Proof.
  intros H. induction H as [|a l N H IH]; intros F D; cbn; [constructor|]. apply nodup_app.
  - apply F. now left.
  - apply IH; [intros b B0; apply F; now right|]. intros x y z X Y. apply D; now right.
  - intros x X K. apply in_flat_map in K as (b & B0 & K). assert (a = b) by (apply (D a b x); [now left|now right|exact X|exact K]). now subst.
Qed.

Definition first (i : nat) : Z := (- nth i kn 0 - Z.of_nat i) / 128 + 1.
Definition many (i : nat) : Z := (nth i kn 0 - 1 - Z.of_nat i) / 128 + 1 - first i.
Definition places (i : nat) : list Z := map (fun t => 128 * t + Z.of_nat i) (zseq (first i) (Z.to_nat (many i))).
Lemma kn_bounds : forallb (fun i => (0 <=? many i) && (0 <=? nth i kn 0) && (nth i kn 0 <? 2 ^ 31)) (seq 0 128) = true.
Proof. vm_compute. reflexivity. Qed.
Lemma in_places i j : (i < 128)%nat -> In j (places i) <-> Z.to_nat (j mod 128) = i /\ Z.abs j < nth i kn 0.
Proof.
  intros Hi. pose proof kn_bounds as K. rewrite forallb_forall in K. specialize (K i ltac:(apply in_seq; lia)). rewrite !andb_true_iff in K. destruct K as ((K1 & K2) & K3).
  apply Z.leb_le in K1, K2. apply Z.ltb_lt in K3. unfold places. rewrite in_map_iff. unfold many in *. unfold first in *. set (k := nth i kn 0) in *. clearbody k.
  pose proof (Z.div_mod (- k - Z.of_nat i) 128 ltac:(lia)) as D1. pose proof (Z.mod_pos_bound (- k - Z.of_nat i) 128 ltac:(lia)) as B1.
  pose proof (Z.div_mod (k - 1 - Z.of_nat i) 128 ltac:(lia)) as D2. pose proof (Z.mod_pos_bound (k - 1 - Z.of_nat i) 128 ltac:(lia)) as B2.
  set (q1 := (- k - Z.of_nat i) / 128) in *. set (q2 := (k - 1 - Z.of_nat i) / 128) in *. clearbody q1 q2.
  split.
  - intros (t & <- & T). apply in_zseq in T. split.
    + rewrite Z.add_comm, (Z.mul_comm 128 t), Z_mod_plus_full, Z.mod_small by lia. lia.
    + apply Z.abs_lt. lia.
  - intros (E & A). apply Z.abs_lt in A. pose proof (Z.div_mod j 128 ltac:(lia)) as D. pose proof (Z.mod_pos_bound j 128 ltac:(lia)) as B. exists (j / 128). split; [lia|]. apply in_zseq. lia.
Qed.
Definition fast_halves : list Z := map (fun j => j mod 2 ^ 32) (flat_map places (seq 0 128)).
Lemma place_of_half h : 0 <= h < 2 ^ 32 -> place_of (h * 2 ^ 32) = if h <? 2 ^ 31 then h else h - 2 ^ 32.
Proof. intros H. unfold place_of. rewrite Z.div_mul by lia. reflexivity. Qed.
Lemma in_all j : In j (flat_map places (seq 0 128)) <-> Z.abs j < nth (Z.to_nat (j mod 128)) kn 0.
Proof.
  rewrite in_flat_map. split.
  - intros (i & I & P). apply in_seq in I. apply in_places in P as (E & P); [|lia]. now rewrite E.
  - intros P. exists (Z.to_nat (j mod 128)). pose proof (Z.mod_pos_bound j 128 ltac:(lia)). split; [apply in_seq; lia|]. apply in_places; [lia|]. now split.
Qed.
Lemma all_small j : In j (flat_map places (seq 0 128)) -> Z.abs j < 2 ^ 31.
Proof.
  intros H. apply in_all in H. pose proof kn_bounds as K. rewrite forallb_forall in K. pose proof (Z.mod_pos_bound j 128 ltac:(lia)).
  specialize (K (Z.to_nat (j mod 128)) ltac:(apply in_seq; lia)). rewrite !andb_true_iff in K. destruct K as (_ & K). apply Z.ltb_lt in K. lia.
Qed.
Lemma fast_halves_nodup : NoDup fast_halves.
Proof.
  apply nodup_map.
  - intros x y X Y E. apply all_small in X, Y. apply Z.abs_lt in X, Y. pose proof (Z.div_mod x (2 ^ 32) ltac:(lia)). pose proof (Z.div_mod y (2 ^ 32) ltac:(lia)). lia.
  - apply nodup_flat_map; [apply seq_NoDup| |].
    + intros i I. apply in_seq in I. unfold places. apply nodup_map; [intros; lia|]. unfold zseq. apply nodup_map; [intros; lia|apply seq_NoDup].
    + intros a b x A B X Y. apply in_seq in A, B. apply in_places in X as (X & _); [|lia]. apply in_places in Y as (Y & _); [|lia]. lia.
Qed.
Lemma in_fast_halves h : In h fast_halves <-> 0 <= h < 2 ^ 32 /\ fast (h * 2 ^ 32).
Proof.
  unfold fast_halves. rewrite in_map_iff. split.
  - intros (j & <- & J). pose proof (all_small j J) as S. apply in_all in J. pose proof (Z.mod_pos_bound j (2 ^ 32) ltac:(lia)) as B. split; [exact B|].
    unfold fast, strip_of. rewrite place_of_half by exact B. assert (E : (if j mod 2 ^ 32 <? 2 ^ 31 then j mod 2 ^ 32 else j mod 2 ^ 32 - 2 ^ 32) = j).
    { apply Z.abs_lt in S. pose proof (Z.div_mod j (2 ^ 32) ltac:(lia)). destruct (Z.ltb_spec (j mod 2 ^ 32) (2 ^ 31)); lia. }
    rewrite E. exact J.
  - intros (B & F). unfold fast, strip_of in F. rewrite place_of_half in F by exact B. eexists. split; [|apply in_all; exact F].
    destruct (Z.ltb_spec h (2 ^ 31)); [apply Z.mod_small; lia|]. replace (h - 2 ^ 32) with (h + (- 1) * 2 ^ 32) by lia. rewrite Z_mod_plus_full. apply Z.mod_small. lia.
Qed.
Lemma flat_length {A B} (f : A -> list B) l : length (flat_map f l) = list_sum (map (fun a => length (f a)) l).
Proof. induction l as [|a l IH]; cbn; [reflexivity|]. now rewrite app_length, IH. Qed.
Lemma sum_of_nat l : Z.of_nat (list_sum l) = fold_right Z.add 0 (map Z.of_nat l).
Proof. induction l as [|a l IH]; [reflexivity|]. cbn [list_sum fold_right map]. rewrite Nat2Z.inj_add. unfold list_sum in IH. now rewrite IH. Qed.
Lemma fast_halves_length : Z.of_nat (length fast_halves) = 4176599702.
Proof.
  unfold fast_halves. rewrite map_length, flat_length, sum_of_nat, map_map.
  assert (E : map (fun i => Z.of_nat (length (places i))) (seq 0 128) = map many (seq 0 128)).
  { apply map_ext_in. intros i I. unfold places, zseq. rewrite !map_length, seq_length. pose proof kn_bounds as K. rewrite forallb_forall in K. specialize (K i I).
    rewrite !andb_true_iff in K. destruct K as ((K & _) & _). apply Z.leb_le in K. lia. }
  rewrite E. vm_compute. reflexivity.
Qed.
Theorem fast_count : exists l, NoDup l /\ (forall h, In h l <-> 0 <= h < 2 ^ 32 /\ fast (h * 2 ^ 32)) /\ Z.of_nat (length l) = 4176599702.
Proof. exists fast_halves. split; [apply fast_halves_nodup|]. split; [apply in_fast_halves|apply fast_halves_length]. Qed.
