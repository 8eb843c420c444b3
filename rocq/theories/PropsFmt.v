(** * Properties of formatting *)
From Coq Require Import Ascii String List Arith Bool ZArith Lia.
From Verif Require Import DenseModel DenseSpec GradModel OpsModel FmtModel FmtSpec FmtProofs.
Import ListNotations.
Open Scope nat_scope.

Definition wd (f : state) : nat := match width f with Some w => w | None => 0 end.
Definition pr (f : state) : Z := match precision f with Some p => Z.of_nat p | None => (-1)%Z end.
Lemma format_eq {T} (af : Z -> Z -> T -> string) f c d : data d <> [] -> (c <> 118%Z \/ sharp f = false /\ plus f = false) ->
  format af f c d = match format_body af (if (c =? 118)%Z then 103%Z else if (c =? 70)%Z then 102%Z else c) (pr f) (wd f) d with Some s => Printed s | None => Panicked end.
Proof.
  intros Hd Hc. unfold format. destruct (Z.eqb_spec c 118) as [->|N].
  - destruct Hc as [?|(-> & ->)]; [congruence|]. cbn [andb]. destruct (data d) eqn:E; [congruence|]. reflexivity.
  - cbn [andb]. destruct (data d) eqn:E; [congruence|]. reflexivity.
Qed.
Section Lay.
Context {T : Type} (af : Z -> Z -> T -> string) (c : Z) (p : Z) (W : nat) (d : dense T) (text : nat -> nat -> string).
Hypotheses (Hw : wf d) (Ht : texts af (verb_of c) p d text).
Let C := (if (c =? 118)%Z then 103%Z else if (c =? 70)%Z then 102%Z else c).
Let val k := match nth_error (data d) k with Some x => format_value af C p x | None => EmptyString end.
Lemma val_ok k : k < rows d * cols d -> option_map (format_value af C p) (nth_error (data d) k) = Some (val k).
Proof. intros H. unfold val. rewrite <- Hw in H. apply nth_error_Some in H. destruct (nth_error (data d) k); [reflexivity|congruence]. Qed.
Lemma val_text i j : i < rows d -> j < cols d -> val (i * cols d + j) = text i j.
Proof.
  intros Hi Hj. destruct (Ht i j Hi Hj) as (x & E & ->). unfold elem in E. destruct (Nat.ltb_spec i (rows d)), (Nat.ltb_spec j (cols d)); try lia. cbn [andb] in E. unfold val. rewrite E. reflexivity.
Qed.
Lemma row_col k : k < rows d * cols d -> exists i j, i < rows d /\ j < cols d /\ k = i * cols d + j.
Proof. intros H. assert (cols d <> 0) by (intros E; rewrite E in H; lia). exists (k / cols d), (k mod cols d). split; [apply Nat.div_lt_upper_bound; lia|]. split; [now apply Nat.mod_upper_bound|]. rewrite Nat.mul_comm. now apply Nat.div_mod. Qed.

Lemma layout : (forall i j, i < rows d -> j < cols d -> lpad W d val i j <= mw d val) ->
  exists out width, format_body af C p W d = Some out /\ laid_out (rows d) (cols d) text out width /\
   (forall i j, i < rows d -> j < cols d -> (exists q, point_at (text i j) q) -> W <= width i j) /\
   ((forall i j q, i < rows d -> j < cols d -> point_at (text i j) q -> S q < String.length (text i j)) ->
     forall i k j, i < rows d -> k < rows d -> j < cols d -> width i j = width k j).
Proof.
  intros H. pose proof (body_ok af C p W d val val_ok H) as B. eexists.
  exists (fun i j => lpad W d val i j + String.length (val (i * cols d + j)) + rpad W d val i j). split; [exact B|].
  assert (LB : forall i j, i < rows d -> before_n (val (i * cols d + j)) <= fst (wpair W d val (rows d) j)).
  { intros i j Hi. pose proof (maxf_ge (rows d) (fun i => left_n W (val (i * cols d + j))) i Hi) as M. cbv beta in M. pose proof (left_before W (val (i * cols d + j))). cbn [wpair fst]. lia. }
  assert (RB : forall i j, i < rows d -> after_n (val (i * cols d + j)) <= snd (wpair W d val (rows d) j)) by (intros i j Hi; apply (maxf_ge (rows d) (fun i => after_n (val (i * cols d + j))) i Hi)).
  split; [|split].
  - eexists _, (lpad W d val), (rpad W d val). split; [reflexivity|]. split.
    + intros i j Hi Hj. rewrite val_text by auto. split; [|reflexivity]. eexists _, _. split; [reflexivity|]. split; apply blanks_spec.
    + intros i k j q q' Hi Hk Hj Q Q'. rewrite <- val_text in Q, Q' by auto. apply before_unique in Q, Q'. subst q q'. unfold lpad. pose proof (LB i j Hi). pose proof (LB k j Hk). lia.
  - intros i j Hi Hj (q & Q). rewrite <- val_text in Q by auto. apply index_dot_some in Q. pose proof (index_dot_lt _ _ Q). pose proof (RB i j Hi) as R1.
    pose proof (maxf_ge (rows d) (fun i => left_n W (val (i * cols d + j))) i Hi) as M. cbv beta in M. unfold lpad, rpad, right_n. cbn [wpair fst snd] in *. unfold left_n in M at 1. unfold before_n. unfold after_n in R1 at 1. rewrite Q in *. unfold after_n at 2. rewrite Q.
    destruct (Nat.ltb_spec (String.length (val (i * cols d + j))) W); lia.
  - intros D i k j Hi Hk Hj.
    assert (X : forall i, i < rows d -> lpad W d val i j + String.length (val (i * cols d + j)) + rpad W d val i j = fst (wpair W d val (rows d) j) + (if 0 <? snd (wpair W d val (rows d) j) then S (snd (wpair W d val (rows d) j)) else 0)); [|now rewrite !X].
    intros a Ha. pose proof (LB a j Ha) as L1. pose proof (RB a j Ha) as R1. unfold lpad, rpad, right_n in *. unfold before_n in *. destruct (index_dot (val (a * cols d + j))) as [q|] eqn:E.
    + assert (P : S q < String.length (text a j)) by (apply (D a j q Ha Hj); rewrite <- val_text by auto; now apply index_dot_some). rewrite <- val_text in P by auto.
      unfold after_n in *. rewrite E in *. destruct (Nat.ltb_spec 0 (snd (wpair W d val (rows d) j))); lia.
    + destruct (Nat.ltb_spec 0 (snd (wpair W d val (rows d) j))); lia.
Qed.
Lemma longest_ge i j : i < rows d -> j < cols d -> String.length (text i j) <= mw d val.
Proof. intros Hi Hj. rewrite <- val_text by auto. apply (maxf_ge (rows d * cols d) (fun k => String.length (val k))). nia. Qed.
Lemma longest_at : 0 < rows d * cols d -> exists i j, i < rows d /\ j < cols d /\ mw d val = String.length (text i j).
Proof.
  intros H. destruct (maxf_at (rows d * cols d) (fun k => String.length (val k)) H) as (k & Hk & E). destruct (row_col k Hk) as (i & j & Hi & Hj & ->). exists i, j. split; [auto|]. split; [auto|]. rewrite <- val_text by auto. exact E.
Qed.
(** a column that has too long a padding has a text with a point that asks for it *)
Lemma pad_from i j : i < rows d -> j < cols d -> exists a, a < rows d /\ fst (wpair W d val (rows d) j) = left_n W (text a j).
Proof. intros Hi Hj. destruct (maxf_at (rows d) (fun i => left_n W (val (i * cols d + j)))) as (a & Ha & E); [lia|]. exists a. split; [auto|]. rewrite <- val_text by auto. exact E. Qed.
Lemma panic_iff : 0 < rows d * cols d -> (exists i j, i < rows d /\ j < cols d /\ mw d val < lpad W d val i j) <->
  exists i k j a b, i < rows d /\ k < rows d /\ j < cols d /\ point_at (text i j) a /\ before (text k j) b /\
    forall m n, m < rows d -> n < cols d -> b + String.length (text m n) < a + (W - String.length (text i j)).
Proof.
  intros Hn. split.
  - intros (k & j & Hk & Hj & H). destruct (pad_from k j Hk Hj) as (i & Hi & E). unfold lpad in H. rewrite E, val_text in H by auto. unfold left_n in H. destruct (index_dot (text i j)) as [a|] eqn:D.
    + exists i, k, j, a, (before_n (text k j)). do 3 (split; [assumption|]). split; [now apply index_dot_some|]. split; [apply before_spec|]. intros m n Hm Hn'. pose proof (longest_ge m n Hm Hn').
      destruct (Nat.ltb_spec (String.length (text i j)) W); lia.
    + pose proof (longest_ge i j Hi Hj). lia.
  - intros (i & k & j & a & b & Hi & Hk & Hj & A & B & H). exists k, j. split; [auto|]. split; [auto|]. destruct (longest_at Hn) as (m & n & Hm & Hn' & ->). specialize (H m n Hm Hn').
    apply before_unique in B. subst b. apply index_dot_some in A. unfold lpad. rewrite val_text by auto.
    pose proof (maxf_ge (rows d) (fun i => left_n W (val (i * cols d + j))) i Hi) as M. cbv beta in M. rewrite val_text in M by auto. cbn [wpair fst]. unfold left_n in M at 1. rewrite A in M.
    destruct (Nat.ltb_spec (String.length (text i j)) W); lia.
Qed.
End Lay.

(** ** C45 *)
(** Without a width, for every verb, precision and matrix: the text is printed, every element in row order and aligned;
    the columns are straight if the library puts a digit after every point. *)
Theorem C45_no_width_partial : forall T (append_float : Z -> Z -> T -> string) f c (d : dense T) text, wf d -> data d <> [] -> (c <> 118%Z \/ sharp f = false /\ plus f = false) -> width f = None ->
  texts append_float (verb_of c) (match precision f with Some p => Z.of_nat p | None => -1 end)%Z d text ->
  exists out w, format append_float f c d = Printed out /\ laid_out (rows d) (cols d) text out w /\
   ((forall i j q, i < rows d -> j < cols d -> point_at (text i j) q -> S q < String.length (text i j)) ->
     forall i k j, i < rows d -> k < rows d -> j < cols d -> w i j = w k j).
Proof.
  intros T af f c d text Hw Hd Hc Hf Ht. rewrite format_eq by auto. unfold wd. rewrite Hf. fold (pr f) in Ht. destruct (layout af c (pr f) 0 d text Hw Ht) as (out & w & B & L & _ & S1).
  - intros i j Hi Hj. match goal with |- ?a <= ?b => destruct (Nat.le_gt_cases a b) as [|X]; [assumption|] end. exfalso.
    destruct (proj1 (panic_iff af c (pr f) 0 d text Ht ltac:(nia))) as (i' & k & j' & a & b & Hi' & Hk & Hj' & A & _ & Z); [eauto|]. specialize (Z i' j' Hi' Hj').
    apply index_dot_some in A. apply index_dot_lt in A. lia.
  - rewrite B. eauto.
Qed.
Print Assumptions C45_no_width_partial.
(** With a width: the exact condition for a panic. *)
Theorem C45_panics : forall T (append_float : Z -> Z -> T -> string) f c (d : dense T) text, wf d -> data d <> [] -> (c <> 118%Z \/ sharp f = false /\ plus f = false) ->
  texts append_float (verb_of c) (match precision f with Some p => Z.of_nat p | None => -1 end)%Z d text ->
  let W := match width f with Some w => w | None => 0 end in
  format append_float f c d = Panicked <->
  exists i k j a b, i < rows d /\ k < rows d /\ j < cols d /\ point_at (text i j) a /\ before (text k j) b /\
    forall m n, m < rows d -> n < cols d -> b + String.length (text m n) < a + (W - String.length (text i j)).
Proof.
  intros T af f c d text Hw Hd Hc Ht W. rewrite format_eq by auto. fold (pr f) in Ht.
  assert (Hn : 0 < rows d * cols d) by (rewrite <- Hw; destruct (data d); [congruence|cbn; lia]).
  rewrite <- (panic_iff af c (pr f) W d text Ht Hn). fold (wd f) in *. change (wd f) with W. split.
  - intros E. match goal with |- exists i j, _ /\ _ /\ ?mw < @?lp i j => set (M := mw) in *; set (LP := lp) in * end.
    destruct (forallb (fun i => forallb (fun j => LP i j <=? M) (seq 0 (cols d))) (seq 0 (rows d))) eqn:F.
    + exfalso. destruct (layout af c (pr f) W d text Hw Ht) as (out & w & B & _).
      * intros i j Hi Hj. rewrite forallb_forall in F. specialize (F i ltac:(apply in_seq; lia)). rewrite forallb_forall in F. specialize (F j ltac:(apply in_seq; lia)). now apply Nat.leb_le in F.
      * rewrite B in E. discriminate.
    + assert (G : existsb (fun i => existsb (fun j => negb (LP i j <=? M)) (seq 0 (cols d))) (seq 0 (rows d)) = true).
      { clear -F. induction (seq 0 (rows d)) as [|i l IH]; [discriminate|]. cbn in *. apply andb_false_iff in F as [F|F]; [|rewrite (IH F); apply orb_true_r]. apply orb_true_iff. left.
        clear -F. induction (seq 0 (cols d)) as [|j l IH]; [discriminate|]. cbn in *. apply andb_false_iff in F as [F|F]; [rewrite F; reflexivity|rewrite (IH F); apply orb_true_r]. }
      apply existsb_exists in G as (i & Hi & G). apply existsb_exists in G as (j & Hj & G). apply in_seq in Hi, Hj. apply negb_true_iff, Nat.leb_gt in G. exists i, j. split; [lia|]. split; [lia|exact G].
  - intros (i & j & Hi & Hj & X). rewrite (body_panics af _ (pr f) W d _ (val_ok af c (pr f) d Hw) i j) by auto. reflexivity.
Qed.
Print Assumptions C45_panics.
(** When it does not panic the text is laid out, and a column is at least as wide as asked for in the rows that have a point. *)
Theorem C45_width_partial : forall T (append_float : Z -> Z -> T -> string) f c (d : dense T) text, wf d -> data d <> [] -> (c <> 118%Z \/ sharp f = false /\ plus f = false) ->
  texts append_float (verb_of c) (match precision f with Some p => Z.of_nat p | None => -1 end)%Z d text ->
  let W := match width f with Some w => w | None => 0 end in
  format append_float f c d <> Panicked -> exists out w, format append_float f c d = Printed out /\ laid_out (rows d) (cols d) text out w /\
   (forall i j, i < rows d -> j < cols d -> (exists q, point_at (text i j) q) -> W <= w i j) /\
   ((forall i j q, i < rows d -> j < cols d -> point_at (text i j) q -> S q < String.length (text i j)) ->
     forall i k j, i < rows d -> k < rows d -> j < cols d -> w i j = w k j).
Proof.
  intros T af f c d text Hw Hd Hc Ht W NP. fold (pr f) in Ht.
  assert (Hn : 0 < rows d * cols d) by (rewrite <- Hw; destruct (data d); [congruence|cbn; lia]).
  destruct (layout af c (pr f) W d text Hw Ht) as (out & w & B & L & M & S1).
  - intros i j Hi Hj. match goal with |- ?a <= ?b => destruct (Nat.le_gt_cases a b) as [|X]; [assumption|] end. exfalso. apply NP.
    apply (C45_panics T af f c d text Hw Hd Hc Ht). apply (panic_iff af c (pr f) W d text Ht Hn). eauto.
  - rewrite format_eq by auto. fold (wd f) in *. change (wd f) with W. rewrite B. eauto 6.
Qed.
Print Assumptions C45_width_partial.
(** A width no longer than the longest text is always fine. *)
Theorem C45_small_width : forall T (append_float : Z -> Z -> T -> string) f c (d : dense T) text, wf d -> data d <> [] -> (c <> 118%Z \/ sharp f = false /\ plus f = false) ->
  texts append_float (verb_of c) (match precision f with Some p => Z.of_nat p | None => -1 end)%Z d text ->
  (exists i j, i < rows d /\ j < cols d /\ match width f with Some w => w | None => 0 end <= String.length (text i j)) -> format append_float f c d <> Panicked.
Proof.
  intros T af f c d text Hw Hd Hc Ht (i & j & Hi & Hj & H) P. apply (C45_panics T af f c d text Hw Hd Hc Ht) in P. destruct P as (i' & k & j' & a & b & Hi' & Hk & Hj' & A & B & X).
  pose proof (X i j Hi Hj) as X1. pose proof (X i' j' Hi' Hj') as X2. apply index_dot_some in A. apply index_dot_lt in A. lia.
Qed.
Print Assumptions C45_small_width.
(** The claim without a guard fails: a width that exceeds twice the length of the only element panics. *)
Theorem C45_refuted : forall T (append_float : Z -> Z -> T -> string) v w c, c <> 118%Z -> (exists q, point_at (append_float (verb_of c) (-1)%Z v) q) -> 2 * String.length (append_float (verb_of c) (-1)%Z v) < w ->
  format append_float (mkState false false (Some w) None) c (mkDense 1 1 [v]) = Panicked.
Proof.
  intros T af v w c Hc (q & Q) Hw. apply (C45_panics T af _ c (mkDense 1 1 [v]) (fun _ _ => af (verb_of c) (-1)%Z v)); [reflexivity|discriminate|auto| |].
  - intros i j Hi Hj. cbn in Hi, Hj. assert (i = 0) as -> by lia. assert (j = 0) as -> by lia. exists v. split; reflexivity.
  - exists 0, 0, 0, q, q. cbn [rows cols]. repeat split; auto; [left; exact Q|]. intros. cbn. lia.
Qed.
Print Assumptions C45_refuted.
(** An empty matrix prints as []; %#v and %+v leave the data to fmt. *)
Theorem C45_others : forall T (append_float : Z -> Z -> T -> string) f c (d : dense T),
  (data d = [] -> c <> 118%Z \/ sharp f = false /\ plus f = false -> format append_float f c d = Printed "[]"%string) /\
  (sharp f = true \/ plus f = true -> exists verb, format append_float f 118%Z d = ByFmt verb (data d)).
Proof.
  intros T af f c d. split.
  - intros E Hc. unfold format. rewrite E. destruct (Z.eqb_spec c 118) as [->|N]; [destruct Hc as [?|(-> & ->)]; [congruence|reflexivity]|reflexivity].
  - intros H. unfold format. rewrite Z.eqb_refl. cbn [andb]. destruct (sharp f); [eauto|]. destruct H as [?| ->]; [discriminate|eauto].
Qed.
Print Assumptions C45_others.
Definition digits (_ _ : Z) (v : nat) : string := match v with 0 => "1.25" | 1 => "10" | _ => "-100.5" end%string.
Example C45_case : format digits (mkState false false None None) 103%Z (mkDense 2 2 [0; 1; 2; 0]) = Printed ("⎡   1.25 10   ⎤" ++ newline ++ "⎣-100.5   1.25⎦")%string /\
  format digits (mkState false false (Some 11) None) 103%Z (mkDense 1 1 [0]) = Panicked /\
  format digits (mkState false false (Some 6) None) 103%Z (mkDense 1 1 [0]) = Printed "[  1.25]"%string.
Proof. repeat split; vm_compute; reflexivity. Qed.
