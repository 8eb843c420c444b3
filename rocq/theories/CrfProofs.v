(** * Viterbi decoding finds a best path *)
From Coq Require Import Reals List Arith Bool ZArith Lia Lra.
From Verif Require Import DenseModel DenseSpec DenseLemmas DenseProofs ArithModel ArithSpec ArithProofs GradModel GradSpec GradProofs9 OpsModel CrfModel CrfSpec.
Import ListNotations.
Open Scope nat_scope.

Lemma loop_opt_inv {A} (P : nat -> A -> Prop) (body : nat -> A -> option A) : forall fuel i st,
  (forall k s, i <= k < i + fuel -> P k s -> exists s', body k s = Some s' /\ P (S k) s') -> P i st ->
  exists s', loop_opt body i fuel st = Some s' /\ P (i + fuel) s'.
Proof.
  induction fuel as [|f IH]; intros i st B H; cbn [loop_opt].
  - exists st. rewrite Nat.add_0_r. auto.
  - destruct (B i st) as (s & -> & H1); [lia|exact H|]. cbn [bind].
    destruct (IH (S i) s) as (s' & E & H2); [intros k s0 Hk; apply B; lia|exact H1|]. exists s'. split; [exact E|]. now rewrite <- Nat.add_succ_comm.
Qed.

Definition upd {A} (f : nat -> A) (k : nat) (v : A) (x : nat) : A := if x =? k then v else f x.
Lemma put_map_seq {A} (f : nat -> A) v : forall n a k, k < n -> put (map f (seq a n)) k v = map (upd f (a + k) v) (seq a n).
Proof.
  induction n as [|n IH]; intros a k Hk; [lia|]. cbn [seq map]. destruct k as [|k]; cbn [put].
  - rewrite Nat.add_0_r. unfold upd at 1. rewrite Nat.eqb_refl. f_equal. apply map_ext_in. intros x Hx. apply in_seq in Hx.
    unfold upd. destruct (Nat.eqb_spec x a); [lia|reflexivity].
  - unfold upd at 1. destruct (Nat.eqb_spec a (a + S k)); [lia|]. f_equal. rewrite IH by lia. now rewrite Nat.add_succ_comm.
Qed.
Lemma repeat_map_seq {A} (v : A) n : forall a, repeat v n = map (fun _ => v) (seq a n).
Proof. induction n as [|n IH]; intros a; cbn; [reflexivity|]. now rewrite (IH (S a)). Qed.
Lemma nth_error_map_seq {A} (f : nat -> A) n k : k < n -> nth_error (map f (seq 0 n)) k = Some (f k).
Proof. intros H. rewrite nth_error_map, (nth_error_nth' _ 0) by now rewrite seq_length. now rewrite seq_nth. Qed.

Lemma last_cons {A} (l : list A) : forall y d, last (y :: l) d = last l y.
Proof. induction l as [|x l IH]; intros y d; [reflexivity|]. change (last (y :: x :: l) d) with (last (x :: l) d). now rewrite !IH. Qed.

Section V.
Context {T : Type}.
Variables (add : T -> T -> T) (lt : T -> T -> bool) (ninf : T).
Hypothesis Sc : scoring add lt ninf.
Let le a b := lt b a = false.
Lemma le_trans a b c : le a b -> le b c -> le a c.
Proof. unfold le. intros H1 H2. eapply (not_lt_trans lt); [apply Sc| |]; eassumption. Qed.
Lemma le_refl a : le a a.
Proof. apply Sc. Qed.
Lemma le_mono a b c : le a b -> le (add a c) (add b c).
Proof. apply Sc. Qed.
Lemma le_ninf a : le ninf a.
Proof. apply Sc. Qed.
Lemma lt_le a b : lt a b = true -> le a b.
Proof. unfold le. intros H. destruct (lt b a) eqn:E; [|reflexivity]. destruct Sc as ((I & Tr & _) & _). rewrite <- (I a). symmetry. eapply Tr; eassumption. Qed.

Definition vs (n : nat) (f : nat -> T) (b : nat -> nat) : vstructure := mkV (mkDense n 1 (map f (seq 0 n))) (map b (seq 0 n)).
Lemma vs_new n : new_structure ninf n = vs n (fun _ => ninf) (fun _ => 0).
Proof. unfold new_structure, vs. now rewrite <- !repeat_map_seq. Qed.
Lemma vs_at n f b k : k < n -> at_ (scores (vs n f b)) [Z.of_nat k; 0%Z] = Some (f k).
Proof.
  intros H. rewrite at_two. destruct (Z.leb_spec 0 (Z.of_nat k)); [|lia]. cbn [andb Z.leb Z.to_nat]. unfold elem. cbn [rows cols scores vs data Z.compare Z.to_nat].
  rewrite Nat2Z.id. destruct (Nat.ltb_spec k n); [|lia]. cbn [andb]. change (0 <? 1) with true. cbn iota. rewrite Nat.mul_1_r, Nat.add_0_r. now apply nth_error_map_seq.
Qed.
Lemma vs_improve n f b k i s : k < n -> improve lt (vs n f b) k i s =
  Some (if lt (f k) s then vs n (upd f k s) (upd b k i) else vs n f b).
Proof.
  intros H. unfold improve. rewrite vs_at by auto. cbn [bind]. destruct (lt (f k) s); [|reflexivity].
  unfold set_. rewrite offset_one by (unfold wf; cbn; now rewrite map_length, seq_length, Nat.mul_1_r).
  cbn [rows cols scores vs data]. rewrite Nat.mul_1_r. unfold is_vector. cbn [rows cols]. rewrite orb_true_r.
  destruct (Z.leb_spec 0 (Z.of_nat k)); [|lia]. destruct (Z.ltb_spec (Z.of_nat k) (Z.of_nat n)); [|lia]. cbn [andb].
  rewrite Nat2Z.id, map_length, seq_length. destruct (Nat.ltb_spec k n); [|lia]. cbn [bind backpointers vs]. unfold vs. rewrite !put_map_seq by auto. reflexivity.
Qed.

(** what a structure holds: at j the best of the candidates c i j, i < m, and the i it came from *)
Definition best (n m : nat) (c : nat -> nat -> T) (ok : nat -> nat -> Prop) (y : vstructure) : Prop :=
  exists f b, y = vs n f b /\
    (forall i j, j < n -> ok i j -> le (c i j) (f j)) /\
    (forall j, j < n -> (f j = ninf /\ b j = 0) \/ (ok (b j) j /\ b j < m /\ f j = c (b j) j)).

Lemma best_new n m c ok : (forall i j, ~ ok i j) -> best n m c ok (new_structure ninf n).
Proof. intros H. rewrite vs_new. exists (fun _ => ninf), (fun _ => 0). split; [reflexivity|]. split; [intros i j _ X; now apply H in X|auto]. Qed.
Lemma best_improve n m c ok ok' y i j : best n m c ok y -> j < n -> i < m ->
  (forall i' j', ok' i' j' <-> ok i' j' \/ (i' = i /\ j' = j)) ->
  exists y', improve lt y j i (c i j) = Some y' /\ best n m c ok' y'.
Proof.
  intros (f & b & -> & U & A) Hj Hi Ok. rewrite vs_improve by auto. eexists. split; [reflexivity|].
  destruct (lt (f j) (c i j)) eqn:E.
  - exists (upd f j (c i j)), (upd b j i). split; [reflexivity|]. split.
    + intros i' j' Hj' X. apply Ok in X. unfold upd. destruct (Nat.eqb_spec j' j) as [->|N].
      * destruct X as [X|[-> _]]; [|apply le_refl]. eapply le_trans; [apply U; eassumption|]. now apply lt_le.
      * destruct X as [X|[_ X]]; [now apply U|congruence].
    + intros j' Hj'. unfold upd. destruct (Nat.eqb_spec j' j) as [->|N].
      * right. split; [apply Ok; auto|auto].
      * destruct (A j' Hj') as [X|(X & Y)]; [now left|right; split; [apply Ok; now left|exact Y]].
  - exists f, b. split; [reflexivity|]. split.
    + intros i' j' Hj' X. apply Ok in X. destruct X as [X|[-> ->]]; [now apply U|exact E].
    + intros j' Hj'. destruct (A j' Hj') as [X|(X & Y)]; [now left|right; split; [apply Ok; now left|exact Y]].
Qed.

Variable n : nat.
Variable tr : dense T.
Variable t : nat -> nat -> T.
Hypothesis Tr : transitions tr n t.

Lemma tr_rows : rows tr = S n. Proof. apply Tr. Qed.
Lemma tr_cols : cols tr = S n. Proof. apply Tr. Qed.
Lemma tr_at i j : i <= n -> j <= n -> at_ tr [Z.of_nat i; Z.of_nat j] = Some (t i j).
Proof.
  intros Hi Hj. rewrite at_two. destruct (Z.leb_spec 0 (Z.of_nat i)), (Z.leb_spec 0 (Z.of_nat j)); try lia. cbn [andb]. rewrite !Nat2Z.id.
  destruct Tr as (_ & _ & _ & E). apply E; lia.
Qed.
Lemma em_at (x : dense T) e j : emission n x e -> j < n -> at_ x [Z.of_nat j; 0%Z] = Some (e j).
Proof. intros E H. rewrite at_two. destruct (Z.leb_spec 0 (Z.of_nat j)); [|lia]. cbn [andb Z.leb Z.compare]. rewrite Nat2Z.id. now apply E. Qed.

Lemma start_best (x : dense T) e : emission n x e ->
  exists y, step_start add lt ninf tr x = Some y /\ best n n (fun _ j => add (e j) (t 0 (S j))) (fun i j => i = j /\ j < n) y.
Proof.
  intros E. unfold step_start. rewrite tr_rows.
  destruct (loop_opt_inv (fun k => best n n (fun _ j => add (e j) (t 0 (S j))) (fun i j => i = j /\ j < k)) (fun i (y : vstructure) =>
             do mv <- at_ x [Z.of_nat i; 0%Z]; do tv <- at_ tr [0%Z; Z.of_nat (i + 1)];
             improve lt y i i (add mv tv)) n 0 (new_structure ninf n)) as (y & -> & B).
  - intros k s Hk B. rewrite (em_at x e) by (auto; lia). cbn [bind]. change 0%Z with (Z.of_nat 0). rewrite tr_at by lia. cbn [bind].
    rewrite Nat.add_1_r. apply (best_improve n n (fun _ j => add (e j) (t 0 (S j))) (fun i j => i = j /\ j < k)); auto; try lia.
  - apply best_new. lia.
  - exists y. auto.
Qed.
Lemma end_best (x : dense T) e : emission n x e ->
  exists y, step_end add lt ninf tr x = Some y /\ best n n (fun _ j => add (e j) (t (S j) 0)) (fun i j => i = j /\ j < n) y.
Proof.
  intros E. unfold step_end. rewrite tr_rows.
  destruct (loop_opt_inv (fun k => best n n (fun _ j => add (e j) (t (S j) 0)) (fun i j => i = j /\ j < k)) (fun i (y : vstructure) =>
             do mv <- at_ x [Z.of_nat i; 0%Z]; do tv <- at_ tr [Z.of_nat (i + 1); 0%Z];
             improve lt y i i (add mv tv)) n 0 (new_structure ninf n)) as (y & -> & B).
  - intros k s Hk B. rewrite (em_at x e) by (auto; lia). cbn [bind]. change 0%Z with (Z.of_nat 0). rewrite tr_at by lia. cbn [bind].
    rewrite Nat.add_1_r. apply (best_improve n n (fun _ j => add (e j) (t (S j) 0)) (fun i j => i = j /\ j < k)); auto; try lia.
  - apply best_new. lia.
  - exists y. auto.
Qed.
Lemma mid_best (x : dense T) e (y0 : dense T) f : emission n x e -> emission n y0 f ->
  exists y, step_mid add lt ninf tr y0 x = Some y /\ best n n (fun i j => add (add (f i) (e j)) (t (S i) (S j))) (fun i j => i < n /\ j < n) y.
Proof.
  intros E F. unfold step_mid. rewrite tr_rows, tr_cols. replace (S n - 1) with n by lia.
  set (c := fun i j => add (add (f i) (e j)) (t (S i) (S j))).
  match goal with |- context [loop_opt ?b _ _ _] => destruct (loop_opt_inv (fun k => best n n c (fun i j => i < k /\ j < n)) b n 0 (new_structure ninf n)) as (y & -> & B) end.
  - intros k s Hk B. cbn beta.
    match goal with |- context [loop_opt ?b _ _ _] => destruct (loop_opt_inv (fun m => best n n c (fun i j => (i < k /\ j < n) \/ (i = k /\ j < m))) b n 0 s) as (y & -> & B2) end.
    + intros j s' Hj B'. rewrite (em_at y0 f) by (auto; lia). cbn [bind]. rewrite (em_at x e) by (auto; lia). cbn [bind]. rewrite tr_at by lia. cbn [bind].
      rewrite !Nat.add_1_r. apply (best_improve n n c (fun i j' => (i < k /\ j' < n) \/ (i = k /\ j' < j))); auto; try lia.
    + destruct B as (f0 & b0 & -> & U & A). exists f0, b0. split; [reflexivity|]. split.
      * intros i j Hj [X|X]; [now apply U|lia].
      * intros j Hj. destruct (A j Hj) as [X|(X & Y)]; [now left|right; split; [now left|exact Y]].
    + exists y. split; [reflexivity|]. destruct B2 as (f0 & b0 & -> & U & A). exists f0, b0. split; [reflexivity|]. split.
      * intros i j Hj X. apply U; [exact Hj|]. lia.
      * intros j Hj. destruct (A j Hj) as [X|(X & Y)]; [now left|right; split; [lia|exact Y]].
  - apply best_new. lia.
  - exists y. split; [reflexivity|]. exact B.
Qed.

(** prefix scores: the terms of a path up to a label, without the end transition *)
Fixpoint run (s : T) (prev : nat) (e : list (nat -> T)) (ys : list nat) : T * nat :=
  match e, ys with
  | x :: e, y :: ys => run (add (add s (x y)) (t (S prev) (S y))) y e ys
  | _, _ => (s, prev)
  end.
Lemma run_terms e : forall s prev ys, length ys = length e ->
  fold_left add (later_terms t prev e ys) s = add (fst (run s prev e ys)) (t (S (snd (run s prev e ys))) 0).
Proof.
  induction e as [|x e IH]; intros s prev [|y ys] H; try discriminate; cbn [later_terms fold_left run fst snd]; [reflexivity|]. apply IH. now injection H.
Qed.
Lemma run_app e x : forall s prev ys y, length ys = length e ->
  run s prev (e ++ [x]) (ys ++ [y]) = (add (add (fst (run s prev e ys)) (x y)) (t (S (snd (run s prev e ys))) (S y)), y).
Proof.
  induction e as [|x0 e IH]; intros s prev [|y0 ys] y H; try discriminate; cbn [app run fst snd]; [reflexivity|]. apply IH. now injection H.
Qed.
Lemma run_last e : forall s prev ys, length ys = length e -> snd (run s prev e ys) = last ys prev.
Proof.
  induction e as [|x e IH]; intros s prev [|y ys] H; try discriminate; [reflexivity|]. cbn [run]. rewrite IH by now injection H. now rewrite last_cons.
Qed.

(** the first position *)
Variable e0 : nat -> T.
Definition prefix (e : list (nat -> T)) (ys : list nat) : T :=
  match ys with [] => ninf | y :: ys => fst (run (add (e0 y) (t 0 (S y))) y e ys) end.

(** the structures after the positions e0 :: e; [done] are those after the first *)
Definition sound (e : list (nat -> T)) (prev : vstructure) (done : list (vstructure (T := T))) : Prop :=
  exists f b, prev = vs n f b /\
    (forall ys, labelling n (e0 :: e) ys -> le (prefix e ys) (f (last ys 0))) /\
    (forall j tail, j < n -> exists ys, trace done j (j :: tail) = Some (ys ++ tail) /\ labelling n (e0 :: e) ys /\ last ys 0 = j /\ le (f j) (prefix e ys)).

Hypothesis Npos : 0 < n.

Lemma sound_start y : best n n (fun _ j => add (e0 j) (t 0 (S j))) (fun i j => i = j /\ j < n) y -> sound [] y [].
Proof.
  intros (f & b & -> & U & A). exists f, b. split; [reflexivity|]. split.
  - intros ys [L F]. destruct ys as [|j [|? ?]]; try discriminate. cbn [prefix run fst last]. inversion F; subst. apply (U j j); auto.
  - intros j tail Hj. exists [j]. cbn [trace app last prefix run fst]. repeat split; auto.
    destruct (A j Hj) as [(-> & _)|(_ & _ & ->)]; [apply le_ninf|apply le_refl].
Qed.
Lemma labelling_snoc e x ys j : labelling n (e0 :: e) ys -> j < n -> labelling n (e0 :: e ++ [x]) (ys ++ [j]).
Proof. intros [L F] H. split; [rewrite app_length; cbn; cbn in L; rewrite app_length; cbn; lia|]. apply Forall_app. auto. Qed.
Lemma prefix_snoc e x ys j : length ys = S (length e) -> prefix (e ++ [x]) (ys ++ [j]) = add (add (prefix e ys) (x j)) (t (S (last ys 0)) (S j)).
Proof.
  destruct ys as [|y ys]; [discriminate|]. intros H. cbn [app prefix]. rewrite run_app by now injection H. cbn [fst]. rewrite run_last by now injection H. now rewrite last_cons.
Qed.
Lemma sound_step e x prev done y : sound e prev done -> (forall f b, prev = vs n f b ->
    best n n (fun i j => add (add (f i) (x j)) (t (S i) (S j))) (fun i j => i < n /\ j < n) y) ->
  sound (e ++ [x]) y (y :: done).
Proof.
  intros (f & b & Ep & U & A) B. destruct (B f b Ep) as (g & c & -> & U2 & A2). exists g, c. split; [reflexivity|]. split.
  - intros ys [L F]. destruct (exists_last (l := ys)) as (ys' & j & ->); [destruct ys; discriminate|].
    apply Forall_app in F. destruct F as [F Fj]. inversion Fj; subst. cbn in L. rewrite !app_length in L. cbn in L. rewrite Nat.add_1_r in L. injection L as L.
    rewrite last_last. assert (L' : length ys' = S (length e)) by lia. rewrite prefix_snoc by exact L'.
    assert (Hl : last ys' 0 < n).
    { destruct (exists_last (l := ys')) as (z & k & ->); [destruct ys'; discriminate|]. rewrite last_last. apply Forall_app in F. destruct F as [_ F]. now inversion F. }
    eapply le_trans; [|apply (U2 (last ys' 0) j); auto]. apply le_mono, le_mono, U. split; auto.
  - intros j tail Hj. cbn [trace backpointers vs]. rewrite nth_error_map_seq by auto. cbn [bind].
    assert (Hc : c j < n) by (destruct (A2 j Hj) as [(_ & ->)|(_ & X & _)]; [exact Npos|exact X]).
    destruct (A (c j) (j :: tail) Hc) as (ys & E & Lb & La & Le). exists (ys ++ [j]). split; [rewrite E, <- app_assoc; reflexivity|].
    split; [now apply labelling_snoc|]. split; [apply last_last|]. rewrite prefix_snoc by apply Lb. rewrite La.
    destruct (A2 j Hj) as [(-> & _)|(_ & _ & ->)]; [apply le_ninf|]. now apply le_mono, le_mono.
Qed.
Lemma vs_emission f b : emission n (scores (vs n f b)) f.
Proof.
  intros j Hj. unfold elem. cbn [rows cols scores vs data]. destruct (Nat.ltb_spec j n); [|lia]. cbn [andb]. change (0 <? 1) with true. cbn iota. rewrite Nat.mul_1_r, Nat.add_0_r. now apply nth_error_map_seq.
Qed.
Lemma alphas_sound xs es : List.Forall2 (emission n) xs es -> forall e prev done, sound e prev done ->
  exists prev' done', alphas add lt ninf tr xs prev done = Some (prev', done') /\ sound (e ++ es) prev' done'.
Proof.
  induction 1 as [|x ex xs es Hx _ IH]; intros e prev done H; cbn [alphas].
  - exists prev, done. rewrite app_nil_r. auto.
  - destruct H as (f & b & -> & H). destruct (mid_best x ex (scores (vs n f b)) f Hx (vs_emission f b)) as (y & E & B). rewrite E. cbn [bind].
    destruct (IH (e ++ [ex]) y (y :: done)) as (p & d & E2 & S2).
    + eapply sound_step; [exists f, b; split; [reflexivity|exact H]|]. intros f' b' Ef. 
      assert (X : forall k, k < n -> f' k = f k).
      { intros k Hk. pose proof (f_equal (fun v => nth_error (data (scores v)) k) Ef) as X. cbn in X. rewrite !nth_error_map_seq in X by auto. congruence. }
      destruct B as (g & c & -> & U & A). exists g, c. split; [reflexivity|]. split.
      * intros i j Hj [Hi _]. cbn beta. rewrite X by auto. apply U; auto.
      * intros j Hj. destruct (A j Hj) as [Z|(Y & Z & W)]; [now left|]. right. split; [exact Y|]. split; [exact Z|]. cbn beta. rewrite X by auto. exact W.
    + exists p, d. split; [exact E2|]. now rewrite <- app_assoc in S2.
Qed.
End V.

Lemma viterbi_best {T} (add : T -> T -> T) lt ninf (n : nat) tr t xs es : scoring add lt ninf -> 0 < n -> transitions tr n t ->
  xs <> [] -> List.Forall2 (emission n) xs es ->
  exists ys, viterbi add lt ninf tr xs = Some ys /\ labelling n es ys /\
    forall zs, labelling n es zs -> lt (added add ninf (terms t es ys)) (added add ninf (terms t es zs)) = false.
Proof.
  intros Sc Np Tr Nx F. destruct F as [|x e0 xs es Hx F]; [congruence|]. cbn [viterbi].
  destruct (start_best add lt ninf Sc n tr t Tr x e0 Hx) as (a0 & -> & B0). cbn [bind].
  destruct (alphas_sound add lt ninf Sc n tr t Tr e0 Np xs es F [] a0 [] (sound_start add lt ninf Sc n t e0 a0 B0)) as (pr & dn & -> & Sd).
  cbn [bind fst snd app] in *. destruct Sd as (f & b & -> & U & A).
  destruct (end_best add lt ninf Sc n tr t Tr (scores (vs n f b)) f (vs_emission n Np f b)) as (y & -> & (g & c & -> & U2 & A2)). cbn [bind].
  assert (W : wf (scores (vs n g c))) by (unfold wf; cbn; now rewrite map_length, seq_length, Nat.mul_1_r).
  destruct (arg_max_spec ninf lt (proj1 Sc) (scores (vs n g c)) W) as [An Am].
  destruct (arg_max lt (scores (vs n g c))) as [r|] eqn:Er.
  2:{ exfalso. destruct (proj1 An eq_refl) as [X|X]; cbn in X; [unfold is_vector in X; cbn in X; rewrite orb_true_r in X; discriminate|lia]. }
  destruct (Am r eq_refl) as (Hr & Mx & _). cbn [scores vs data] in Hr, Mx. rewrite map_length, seq_length in Hr, Mx. cbn [bind].
  assert (G : forall k, k < n -> nth k (map g (seq 0 n)) ninf = g k).
  { intros k Hk. rewrite (nth_indep _ _ (g 0)) by (now rewrite map_length, seq_length). rewrite map_nth. now rewrite seq_nth. }
  destruct (A r [] Hr) as (ys & Ey & Lb & La & Le). exists ys. rewrite Ey, app_nil_r. split; [reflexivity|]. split; [exact Lb|].
  assert (P : forall zs, labelling n (e0 :: es) zs -> added add ninf (terms t (e0 :: es) zs) = add (prefix add ninf t e0 es zs) (t (S (last zs 0)) 0)).
  { intros [|z zs] [L _]; [discriminate|]. cbn [terms added fold_left prefix]. rewrite run_terms by now injection L. rewrite run_last by now injection L. now rewrite last_cons. }
  intros zs Lz. rewrite !P by auto. rewrite La.
  assert (Hl : last zs 0 < n).
  { destruct Lz as [L F']. destruct (exists_last (l := zs)) as (z & k & ->); [destruct zs; discriminate|]. rewrite last_last. apply Forall_app in F'. destruct F' as [_ F']. now inversion F'. }
  eapply (le_trans add lt ninf Sc); [apply (le_mono add lt ninf Sc), U, Lz|].
  eapply (le_trans add lt ninf Sc); [apply (U2 (last zs 0) (last zs 0)); auto|].
  eapply (le_trans add lt ninf Sc) with (b := g r).
  - specialize (Mx (last zs 0) Hl). rewrite !G in Mx by auto. exact Mx.
  - destruct (A2 r Hr) as [(-> & _)|(_ & _ & ->)]; [apply (le_ninf add lt ninf Sc)|]. now apply (le_mono add lt ninf Sc).
Qed.
