(** * Proofs about matrix structure: reshaping, joining, splitting, filling *)
From Coq Require Import List ZArith Arith Bool Lia.
From Verif Require Import DenseModel DenseSpec DenseLemmas DenseCycles DenseProofs.
Import ListNotations.

Section T.
Context {T : Type}.
Variables zero one : T.
Implicit Types m : dense T.

(** ** Reshape, Flatten, ResizeVector *)
Lemma reshape_spec m r c : wf m ->
  (forall m', reshape m [r; c] = Some m' -> (0 <= r /\ 0 <= c)%Z /\ rows m' = Z.to_nat r /\ cols m' = Z.to_nat c /\ wf m' /\ data m' = data m)
  /\ (reshape m [r; c] = None <-> ~ (0 <= r /\ 0 <= c /\ r * c = Z.of_nat (rows m * cols m))%Z).
Proof.
  intros Hw. cbn [reshape]. unfold wf in Hw.
  destruct (Z.ltb_spec r 0), (Z.ltb_spec c 0); cbn [orb]; try (split; [discriminate|]; split; [lia|reflexivity]).
  destruct (Z.eqb_spec (r * c) (Z.of_nat (length (data m)))) as [E|E].
  - split; [|split; [discriminate|rewrite E, Hw; lia]]. intros m' Em. injection Em as <-. cbn. repeat split; auto.
    unfold wf. cbn. apply Nat2Z.inj. rewrite <- E, Nat2Z.inj_mul, !Z2Nat.id by lia. reflexivity.
  - split; [discriminate|]. split; [rewrite Hw in E; lia|reflexivity].
Qed.

Lemma reshape_back m r c m' : wf m -> reshape m [r; c] = Some m' ->
  reshape m' [Z.of_nat (rows m); Z.of_nat (cols m)] = Some m.
Proof.
  intros Hw E. apply reshape_spec in E; [|assumption]. destruct E as (H & R & C & W & D). cbn [reshape]. rewrite D, Hw.
  destruct (Z.ltb_spec (Z.of_nat (rows m)) 0), (Z.ltb_spec (Z.of_nat (cols m)) 0); try lia. cbn [orb].
  rewrite Nat2Z.inj_mul, Z.eqb_refl, !Nat2Z.id. now destruct m.
Qed.

Lemma resize_spec m n m' : wf m -> resize_vector zero m n = Some m' ->
  is_vector m = true /\ (0 <= n)%Z /\
  is_matrix m' (Z.to_nat n) 1 (fun i _ => if i <? length (data m) then nth_error (data m) i else Some zero).
Proof.
  intros Hw. unfold resize_vector. destruct (is_vector m); [|discriminate]. cbn [negb].
  destruct (Z.ltb_spec n 0); [discriminate|]. generalize (Z.to_nat n) as k. intros k.
  destruct (Nat.leb_spec k (length (data m))) as [Hk|Hk]; intros E; injection E as <-; (split; [reflexivity|split; [assumption|]]).
  - repeat split; [unfold wf; cbn; rewrite firstn_length; lia|]. intros i j Hi Hj. rewrite elem_in by assumption. cbn [data cols].
    rewrite nth_firstn. replace (i * 1 + j) with i by lia. bool_cases; try lia; reflexivity.
  - repeat split; [unfold wf; cbn [data rows cols]; rewrite blit_length by (rewrite repeat_length; lia); rewrite repeat_length; lia|].
    intros i j Hi Hj. rewrite elem_in by assumption. cbn [data cols].
    rewrite nth_blit by (rewrite repeat_length; lia). replace (i * 1 + j) with i by lia. rewrite nth_repeat.
    rewrite Nat.add_0_l, Nat.sub_0_r. bool_cases; try lia; reflexivity.
Qed.

(** ** ConcatV, SplitV, Range *)
Lemma fold_sum {A} (f : A -> nat) l k : fold_left (fun s v => s + f v) l k = k + list_sum (map f l).
Proof. revert k. induction l as [|x l IH]; intros k; cbn; [lia|]. rewrite IH. unfold list_sum. lia. Qed.

Lemma concat_spec (vs : list (dense T)) : (forall m', concat_v vs = Some m' -> data m' = concat (map data vs) /\ rows m' = length (data m') /\ cols m' = 1 /\ wf m')
  /\ (concat_v vs = None <-> exists v, In v vs /\ is_vector v = false).
Proof.
  unfold concat_v. rewrite fold_append, fold_sum. cbn [app]. rewrite flat_map_concat_map.
  destruct (forallb is_vector vs) eqn:F.
  - split.
    + intros m' E. injection E as <-. cbn. assert (L : length (concat (map data vs)) = list_sum (map (fun v : dense T => length (data v)) vs)).
      { clear. induction vs as [|v vs IH]; cbn; [reflexivity|]. rewrite app_length, IH. reflexivity. }
      repeat split; auto. unfold wf. cbn. rewrite L. unfold list_sum. lia.
    + split; [discriminate|]. intros (v & Hv & E). rewrite forallb_forall in F. apply F in Hv. congruence.
  - split; [discriminate|]. split; [|reflexivity]. intros _.
    induction vs as [|v vs IH]; cbn in F; [discriminate|]. destruct (is_vector v) eqn:E.
    + destruct (IH F) as (w & Hw & Ew). exists w. split; [now right|assumption].
    + exists v. split; [now left|assumption].
Qed.

(** The pieces are consecutive runs of the vector. *)
Fixpoint pieces (l : list T) (sizes : list nat) : list (list T) :=
  match sizes with [] => [] | s :: sizes => firstn s l :: pieces (skipn s l) sizes end.

Lemma column_wf (l : list T) : wf (column l).
Proof. unfold wf, column. cbn. lia. Qed.

Lemma split_loop_spec (l spare : list T) sizes : forall off, off <= length l -> Forall (fun s => (0 <= s)%Z) sizes ->
  off + list_sum (map Z.to_nat sizes) <= length l ->
  split_loop l spare off sizes = Some (map column (pieces (skipn off l) (map Z.to_nat sizes))).
Proof.
  induction sizes as [|s sizes IH]; intros off Ho Hp Hs; cbn [split_loop map pieces]; [reflexivity|].
  inversion Hp as [|? ? P1 P2]; subst. cbn [map list_sum fold_right] in Hs.
  assert (B : off + Z.to_nat s <= length l) by lia.
  destruct (Z.ltb_spec s 0); [lia|].
  destruct (Nat.leb_spec (length l) off), (Nat.ltb_spec off (off + Z.to_nat s)); cbn [andb]; try lia.
  all: rewrite app_length; destruct (Nat.ltb_spec (length l + length spare) (off + Z.to_nat s)); [lia|].
  all: rewrite IH by (try assumption; unfold list_sum in *; lia).
  all: f_equal; f_equal; [|f_equal; f_equal; rewrite skipn_skipn; f_equal; lia].
  all: unfold column; assert (Q : slice (l ++ spare) off (off + Z.to_nat s) = firstn (Z.to_nat s) (skipn off l)).
  1,3,5: apply nth_ext; intros k; rewrite nth_slice, nth_firstn, nth_skipn, nth_app; replace (off + Z.to_nat s - off) with (Z.to_nat s) by lia;
         bool_cases; try reflexivity; lia.
  all: rewrite Q; reflexivity.
Qed.

Lemma split_loop_none (l : list T) sizes : forall off, off <= length l ->
  split_loop l [] off sizes = None -> ~ (Forall (fun s => (0 <= s)%Z) sizes /\ off + list_sum (map Z.to_nat sizes) <= length l).
Proof. intros off Ho E [H1 H2]. rewrite split_loop_spec in E by assumption. discriminate. Qed.

Lemma split_loop_some (l : list T) sizes : forall off ms, off <= length l -> split_loop l [] off sizes = Some ms ->
  Forall (fun s => (0 <= s)%Z) sizes /\ off + list_sum (map Z.to_nat sizes) <= length l.
Proof.
  induction sizes as [|s sizes IH]; intros off ms Ho E; cbn [split_loop] in E; [split; [constructor|cbn; lia]|].
  destruct (Z.ltb_spec s 0); [discriminate|].
  destruct ((length l <=? off) && (off <? off + Z.to_nat s)); [discriminate|].
  rewrite app_nil_r in E. destruct (Nat.ltb_spec (length l) (off + Z.to_nat s)); [discriminate|].
  destruct (split_loop l [] (off + Z.to_nat s) sizes) eqn:E2; [|discriminate].
  apply IH in E2; [|lia]. destruct E2 as [F1 F2]. split; [constructor; [lia|assumption]|]. cbn [map list_sum fold_right]. unfold list_sum in F2. lia.
Qed.

Lemma split_spec m sizes : wf m ->
  (forall ms, split_v m [] sizes = Some ms -> ms = map column (pieces (data m) (map Z.to_nat sizes))) /\
  ((exists ms, split_v m [] sizes = Some ms) <->
   is_vector m = true /\ Forall (fun s => (0 <= s)%Z) sizes /\ list_sum (map Z.to_nat sizes) <= rows m * cols m).
Proof.
  intros Hw. unfold split_v. rewrite <- Hw. destruct (is_vector m); cbn [negb].
  2:{ split; [discriminate|]. split; [intros [ms E]; discriminate|intros [E _]; discriminate]. }
  split.
  - intros ms E. pose proof (split_loop_some _ _ _ _ (Nat.le_0_l _) E) as [F1 F2].
    rewrite split_loop_spec in E by (assumption || lia). now injection E as <-.
  - split.
    + intros [ms E]. apply split_loop_some in E; [|lia]. tauto.
    + intros (_ & F1 & F2). rewrite split_loop_spec by (assumption || lia). eauto.
Qed.

Lemma pieces_concat sizes : forall l : list T, list_sum sizes = length l -> concat (pieces l sizes) = l.
Proof.
  induction sizes as [|s sizes IH]; intros l H; cbn [pieces concat]; [destruct l; [reflexivity|discriminate]|].
  cbn in H. rewrite IH by (rewrite skipn_length; unfold list_sum; lia). apply firstn_skipn.
Qed.
Lemma concat_pieces (ls : list (list T)) : pieces (concat ls) (map (@length T) ls) = ls.
Proof.
  induction ls as [|l ls IH]; cbn [concat map pieces]; [reflexivity|].
  rewrite firstn_app, Nat.sub_diag, firstn_all, firstn_O, app_nil_r.
  rewrite skipn_app, skipn_all, Nat.sub_diag. cbn [skipn app]. now rewrite IH.
Qed.

(** Splitting then concatenating a vector, and the reverse. *)
Lemma split_concat m sizes ms : wf m -> split_v m [] sizes = Some ms -> list_sum (map Z.to_nat sizes) = rows m * cols m ->
  concat_v ms = Some (column (data m)).
Proof.
  intros Hw E Hs. apply split_spec in E; [|assumption]. subst ms.
  destruct (concat_v (map column (pieces (data m) (map Z.to_nat sizes)))) as [c|] eqn:E.
  - apply concat_spec in E. destruct E as (D & R & C & _). rewrite map_map in D.
    replace (map (fun x => data (column x)) (pieces (data m) (map Z.to_nat sizes))) with (pieces (data m) (map Z.to_nat sizes)) in D by (symmetry; apply map_id).
    rewrite pieces_concat in D by (now rewrite Hw). rewrite D in R. f_equal. destruct c as [r c l]. cbn [rows cols data] in *. subst. reflexivity.
  - apply concat_spec in E. destruct E as (v & Hv & E). apply in_map_iff in Hv. destruct Hv as (l & <- & _).
    unfold is_vector, column in E. cbn in E. now rewrite orb_true_r in E.
Qed.
Lemma concat_split (vs : list (dense T)) m : concat_v vs = Some m ->
  split_v m [] (map (fun v => Z.of_nat (length (data v))) vs) = Some (map (fun v => column (data v)) vs).
Proof.
  intros E. apply concat_spec in E. destruct E as (D & R & C & W). unfold split_v.
  assert (V : is_vector m = true) by (unfold is_vector; rewrite C; apply orb_true_r). rewrite V. cbn [negb].
  assert (M : map Z.to_nat (map (fun v : dense T => Z.of_nat (length (data v))) vs) = map (@length T) (map data vs)).
  { rewrite !map_map. apply map_ext. intros v. apply Nat2Z.id. }
  rewrite split_loop_spec.
  - cbn [skipn]. rewrite M, D, concat_pieces, map_map. reflexivity.
  - lia.
  - apply Forall_forall. intros s Hs. apply in_map_iff in Hs. destruct Hs as (v & <- & _). lia.
  - rewrite M, D. clear. induction (map data vs) as [|l ls IH]; cbn; [lia|]. rewrite app_length. unfold list_sum in IH. lia.
Qed.

Lemma range_spec m a b : wf m ->
  (forall m', range m [] a b = Some m' -> is_matrix m' (Z.to_nat (b - a)) 1 (fun i _ => nth_error (data m) (Z.to_nat a + i))) /\
  (range m [] a b = None <-> ~ (is_vector m = true /\ (0 <= a <= b)%Z /\ (b <= Z.of_nat (rows m * cols m))%Z)).
Proof.
  intros Hw. unfold range. unfold wf in Hw. rewrite <- Hw. rewrite app_nil_r. destruct (is_vector m); cbn [negb].
  2:{ split; [discriminate|]. split; [intros _ [E _]; discriminate|reflexivity]. }
  destruct (Z.ltb_spec b a); [split; [discriminate|]; split; [lia|reflexivity]|].
  destruct (Z.ltb_spec b 0), (Z.ltb_spec a 0); cbn [orb]; try (split; [discriminate|]; split; [lia|reflexivity]).
  destruct (Z.ltb_spec (Z.of_nat (length (data m))) b); [split; [discriminate|]; split; [lia|reflexivity]|].
  split; [|split; [discriminate|lia]]. intros m' E. injection E as <-.
  assert (L : length (slice (data m) (Z.to_nat a) (Z.to_nat b)) = Z.to_nat (b - a)) by (rewrite slice_length by (rewrite ?Hw; lia); lia).
  repeat split; cbn [rows cols data]; [exact L|unfold wf; cbn; lia|]. intros i j Hi Hj. rewrite elem_in by (cbn; lia). cbn [data cols].
  rewrite nth_slice. destruct (Nat.ltb_spec (i * 1 + j) (Z.to_nat b - Z.to_nat a)); [|lia]. f_equal. lia.
Qed.

(** ** Stack, AppendRows *)
Lemma stack_loop_spec c (vs : list (dense T)) : forall i (out : list T), length out = (i + length vs) * c ->
  Forall (fun v => is_vector v = true /\ length (data v) = c) vs ->
  exists out', stack_loop c i vs out = Some out' /\ length out' = length out /\
    (forall k, k < i * c -> nth_error out' k = nth_error out k) /\
    (forall a j v, nth_error vs a = Some v -> j < c -> nth_error out' ((i + a) * c + j) = nth_error (data v) j).
Proof.
  induction vs as [|v vs IH]; intros i out Hl Hv; cbn [stack_loop].
  - exists out. repeat split; auto. intros a j v H. now destruct a.
  - inversion Hv as [|? ? [V1 V2] V3]; subst. rewrite V1, Nat.eqb_refl. cbn [negb]. cbn [length] in Hl.
    assert (B : i * length (data v) + length (data v) <= length out) by nia.
    destruct (IH (S i) (blit out (i * length (data v)) (data v))) as (out' & E & L & H1 & H2); [rewrite blit_length by assumption; lia|assumption|].
    exists out'. split; [assumption|]. split; [rewrite L; now apply blit_length|]. split.
    + intros k Hk. rewrite H1 by lia. rewrite nth_blit by assumption. destruct (Nat.leb_spec (i * length (data v)) k); [lia|]. reflexivity.
    + intros [|a] j w Hw Hj; cbn [nth_error] in Hw.
      * injection Hw as <-. rewrite Nat.add_0_r. rewrite H1 by lia. rewrite nth_blit by assumption.
        destruct (Nat.leb_spec (i * length (data v)) (i * length (data v) + j)), (Nat.ltb_spec (i * length (data v) + j) (i * length (data v) + length (data v))); try lia.
        cbn [andb]. f_equal. lia.
      * rewrite <- (H2 a j w) by assumption. f_equal. lia.
Qed.

Lemma stack_loop_none c (vs : list (dense T)) : forall i (out : list T), stack_loop c i vs out = None -> exists v, In v vs /\ (is_vector v = false \/ length (data v) <> c).
Proof.
  induction vs as [|v vs IH]; intros i out E; cbn [stack_loop] in E; [discriminate|].
  destruct (is_vector v) eqn:V; cbn [negb] in E; [|exists v; split; [now left|now left]].
  destruct (Nat.eqb_spec (length (data v)) c) as [L|L]; cbn [negb] in E; [|exists v; split; [now left|now right]].
  destruct (IH _ _ E) as (w & Hw & H). exists w. split; [now right|assumption].
Qed.

Definition stackable (vs : list (dense T)) : Prop :=
  Forall (fun v => is_vector v = true /\ length (data v) = match vs with [] => 0 | w :: _ => length (data w) end) vs.

Lemma stack_spec vs : vs <> [] ->
  (stackable vs -> exists m, stack zero vs = Some m /\
     is_matrix m (length vs) (match vs with [] => 0 | v :: _ => length (data v) end)
       (fun i j => match nth_error vs i with Some v => nth_error (data v) j | None => None end)) /\
  (~ stackable vs -> stack zero vs = None).
Proof.
  intros Hne. destruct vs as [|v vs]; [congruence|]. unfold stackable, stack. set (c := length (data v)). split.
  - intros Hs. destruct (stack_loop_spec c (v :: vs) 0 (repeat zero (length (v :: vs) * c))) as (out & E & L & _ & H); [now rewrite repeat_length|assumption|].
    rewrite E. eexists. split; [reflexivity|]. rewrite repeat_length in L. repeat split; [exact L|].
    intros i j Hi Hj. rewrite elem_in by assumption. cbn [data cols]. destruct (nth_some _ _ Hi) as [w Ew]. rewrite Ew.
    rewrite <- (H i j w) by assumption. reflexivity.
  - intros Hn. destruct (stack_loop c 0 (v :: vs) (repeat zero (length (v :: vs) * c))) eqn:E; [|reflexivity]. exfalso. apply Hn.
    clear Hn. revert l E. generalize (repeat zero (length (v :: vs) * c)). generalize 0. clearbody c. generalize (v :: vs). clear Hne v vs. intros vs.
    induction vs as [|v vs IH]; intros i out l E; [constructor|]. cbn [stack_loop] in E.
    destruct (is_vector v) eqn:V; cbn [negb] in E; [|discriminate].
    destruct (Nat.eqb_spec (length (data v)) c) as [L|L]; cbn [negb] in E; [|discriminate]. constructor; [auto|]. eapply IH. eassumption.
Qed.

Lemma append_loop_spec c (vs : list (dense T)) : forall off (out : list T), length out = off + length vs * c ->
  Forall (fun v => is_vector v = true /\ length (data v) = c) vs ->
  exists out', append_loop c off vs out = Some out' /\ length out' = length out /\
    (forall k, k < off -> nth_error out' k = nth_error out k) /\
    (forall a j v, nth_error vs a = Some v -> j < c -> nth_error out' (off + a * c + j) = nth_error (data v) j).
Proof.
  induction vs as [|v vs IH]; intros off out Hl Hv; cbn [append_loop].
  - exists out. repeat split; auto. intros a j v H. now destruct a.
  - inversion Hv as [|? ? [V1 V2] V3]; subst. rewrite V1, Nat.eqb_refl. cbn [negb orb]. cbn [length] in Hl.
    assert (B : off + length (data v) <= length out) by nia.
    destruct (IH (off + length (data v)) (blit out off (data v))) as (out' & E & L & H1 & H2); [rewrite blit_length by assumption; nia|assumption|].
    exists out'. split; [assumption|]. split; [rewrite L; now apply blit_length|]. split.
    + intros k Hk. rewrite H1 by lia. rewrite nth_blit by assumption. destruct (Nat.leb_spec off k); [lia|]. reflexivity.
    + intros [|a] j w Hw Hj; cbn [nth_error] in Hw.
      * injection Hw as <-. rewrite Nat.mul_0_l, Nat.add_0_r. rewrite H1 by lia. rewrite nth_blit by assumption.
        destruct (Nat.leb_spec off (off + j)), (Nat.ltb_spec (off + j) (off + length (data v))); try lia.
        cbn [andb]. f_equal. lia.
      * rewrite <- (H2 a j w) by assumption. f_equal. lia.
Qed.
Lemma append_loop_some c (vs : list (dense T)) : forall off (out out' : list T), append_loop c off vs out = Some out' ->
  Forall (fun v => is_vector v = true /\ length (data v) = c) vs.
Proof.
  induction vs as [|v vs IH]; intros off out out' E; [constructor|]. cbn [append_loop] in E.
  destruct (is_vector v) eqn:V, (Nat.eqb_spec (length (data v)) c); cbn [negb orb] in E; try discriminate.
  constructor; [auto|]. eapply IH. eassumption.
Qed.

Lemma append_rows_spec m vs : wf m ->
  (forall m', append_rows zero m vs = Some m' ->
     is_matrix m' (rows m + length vs) (cols m)
       (fun i j => if i <? rows m then elem m i j else match nth_error vs (i - rows m) with Some v => nth_error (data v) j | None => None end)) /\
  (append_rows zero m vs = None <-> ~ Forall (fun v => is_vector v = true /\ length (data v) = cols m) vs).
Proof.
  intros Hw. unfold append_rows. unfold wf in Hw. rewrite Hw.
  set (out0 := blit (repeat zero ((rows m + length vs) * cols m)) 0 (data m)).
  assert (L0 : length out0 = rows m * cols m + length vs * cols m).
  { unfold out0. rewrite blit_length by (rewrite repeat_length, Hw; nia). rewrite repeat_length. lia. }
  destruct (append_loop (cols m) (rows m * cols m) vs out0) as [out|] eqn:E.
  - pose proof (append_loop_some _ _ _ _ _ E) as F.
    destruct (append_loop_spec (cols m) vs (rows m * cols m) out0 L0 F) as (out' & E' & L & H1 & H2).
    rewrite E in E'. injection E' as <-. split; [|split; [discriminate|tauto]].
    intros m' Em. injection Em as <-. repeat split; [unfold wf; cbn; nia|]. intros i j Hi Hj.
    rewrite elem_in by assumption. cbn [data cols]. destruct (Nat.ltb_spec i (rows m)) as [H|H].
    + rewrite H1 by (now apply idx_lt). rewrite elem_in by assumption. unfold out0. rewrite nth_blit by (rewrite repeat_length, Hw; nia).
      pose proof (idx_lt _ _ _ _ H Hj). rewrite Hw, Nat.add_0_l, Nat.sub_0_r. bool_cases; try lia; reflexivity.
    + assert (Hi' : i - rows m < length vs) by lia. destruct (nth_some _ _ Hi') as [v Ev]. rewrite Ev.
      rewrite <- (H2 _ _ _ Ev Hj). f_equal. nia.
  - split; [discriminate|]. split; [|reflexivity]. intros _ F.
    destruct (append_loop_spec (cols m) vs (rows m * cols m) out0 L0 F) as (out' & E' & _). congruence.
Qed.

(** ** PadRows, PadColumns *)
Lemma pad_rows_spec m n : wf m -> (0 <= n)%Z -> exists m', pad_rows zero m n = Some m' /\
  is_matrix m' (rows m + Z.to_nat n) (cols m) (fun i j => if i <? rows m then elem m i j else Some zero).
Proof.
  intros Hw Hn. unfold pad_rows. destruct (Z.ltb_spec n 0); [lia|].
  destruct ((cols m =? 0) || (rows m =? 0)) eqn:Z; (eexists; split; [reflexivity|]).
  - repeat split; [unfold wf; cbn; apply repeat_length|]. intros i j Hi Hj. rewrite elem_in by assumption. cbn [data cols zeros].
    rewrite nth_repeat. pose proof (idx_lt _ _ _ _ Hi Hj). apply orb_true_iff in Z. rewrite !Nat.eqb_eq in Z. bool_cases; try lia; reflexivity.
  - cbn [rows cols data zeros]. repeat split; [unfold wf; cbn [data rows cols]; rewrite blit_length by (rewrite repeat_length, Hw; nia); apply repeat_length|].
    intros i j Hi Hj. rewrite elem_in by assumption. cbn [data cols]. rewrite nth_blit by (rewrite repeat_length, Hw; nia).
    rewrite nth_repeat, Hw, Nat.add_0_l, Nat.sub_0_r. pose proof (idx_lt _ _ _ _ Hi Hj).
    destruct (Nat.ltb_spec i (rows m)) as [H1|H1].
    + rewrite elem_in by assumption. pose proof (idx_lt _ _ _ _ H1 Hj). bool_cases; try lia; reflexivity.
    + bool_cases; try nia; reflexivity.
Qed.

Lemma pad_loop_spec (src : list T) dc yc fuel : dc <= yc -> forall a (out : list T), length src = (a + fuel) * dc -> length out = (a + fuel) * yc ->
  let out' := pad_loop dc yc src (a * dc) (a * yc) fuel out in
  length out' = length out /\
  (forall i j, i < a + fuel -> j < yc -> nth_error out' (i * yc + j) = if (a <=? i) && (j <? dc) then nth_error src (i * dc + j) else nth_error out (i * yc + j)).
Proof.
  intros Hd. induction fuel as [|fuel IH]; intros a out Hs Ho; cbn [pad_loop].
  - split; [reflexivity|]. intros i j Hi Hj. destruct (Nat.leb_spec a i); [lia|]. reflexivity.
  - assert (Ls : length (slice src (a * dc) (a * dc + dc)) = dc) by (rewrite slice_length by nia; lia).
    assert (B : a * yc + length (slice src (a * dc) (a * dc + dc)) <= length out) by (rewrite Ls; nia).
    set (blt := blit out (a * yc) (slice src (a * dc) (a * dc + dc))).
    replace (a * dc + dc) with (S a * dc) by lia. replace (a * yc + yc) with (S a * yc) by lia. unfold blt; clear blt.
    destruct (IH (S a) (blit out (a * yc) (slice src (a * dc) (a * dc + dc)))) as [L H]; [lia|rewrite blit_length by assumption; lia|].
    split; [rewrite L; now apply blit_length|]. intros i j Hi Hj. rewrite H by lia. rewrite nth_blit by assumption. rewrite Ls, nth_slice.
    destruct (Nat.leb_spec (S a) i) as [H1|H1], (Nat.leb_spec a i) as [H2|H2]; try lia; cbn [andb].
    + destruct (Nat.ltb_spec j dc); [reflexivity|]. assert (a * yc + dc <= i * yc + j) by nia. bool_cases; try lia; reflexivity.
    + assert (i = a) by lia. subst i. destruct (Nat.ltb_spec j dc); bool_cases; try lia; try reflexivity. f_equal. lia.
    + assert (i * yc + j < a * yc) by nia. bool_cases; try lia; reflexivity.
Qed.

Lemma pad_columns_spec m n : wf m -> (0 <= n)%Z -> exists m', pad_columns zero m n = Some m' /\
  is_matrix m' (rows m) (cols m + Z.to_nat n) (fun i j => if j <? cols m then elem m i j else Some zero).
Proof.
  intros Hw Hn. unfold pad_columns. destruct (Z.ltb_spec n 0); [lia|].
  destruct ((rows m =? 0) || (cols m =? 0)) eqn:Z; (eexists; split; [reflexivity|]).
  - repeat split; [unfold wf; cbn; apply repeat_length|]. intros i j Hi Hj. rewrite elem_in by assumption. cbn [data cols zeros].
    rewrite nth_repeat. pose proof (idx_lt _ _ _ _ Hi Hj). apply orb_true_iff in Z. rewrite !Nat.eqb_eq in Z. bool_cases; try lia; reflexivity.
  - cbn [rows cols data zeros].
    destruct (pad_loop_spec (data m) (cols m) (cols m + Z.to_nat n) (rows m) ltac:(lia) 0 (repeat zero (rows m * (cols m + Z.to_nat n)))) as [L H1]; [now rewrite Hw|now rewrite repeat_length|].
    cbn [Nat.mul] in L, H1. repeat split; [unfold wf; cbn [data rows cols]; rewrite L; apply repeat_length|].
    intros i j Hi Hj. rewrite elem_in by assumption. cbn [data cols]. rewrite H1 by assumption. cbn [Nat.leb andb].
    destruct (Nat.ltb_spec j (cols m)) as [H2|H2]; [now rewrite elem_in|]. rewrite nth_repeat.
    pose proof (idx_lt _ _ _ _ Hi Hj). bool_cases; try lia; reflexivity.
Qed.

Lemma pads_panic m n : (pad_rows zero m n = None <-> (n < 0)%Z) /\ (pad_columns zero m n = None <-> (n < 0)%Z).
Proof.
  unfold pad_rows, pad_columns. destruct (Z.ltb_spec n 0); [tauto|].
  destruct ((cols m =? 0) || (rows m =? 0)), ((rows m =? 0) || (cols m =? 0)); split; split; try discriminate; lia.
Qed.

(** ** Augment *)
Lemma augment_row_spec m i fuel : forall j (l : list T), i < rows m -> cols m = rows m -> length l = rows m * (2 * cols m) -> j + fuel = cols m -> wf m ->
  let l' := augment_row zero m i j fuel l in
  length l' = length l /\
  forall a b, a < rows m -> b < 2 * cols m -> nth_error l' (a * (2 * cols m) + b) =
    if (a =? i) && ((j <=? b) && (b <? cols m)) then elem m i b else nth_error l (a * (2 * cols m) + b).
Proof.
  induction fuel as [|fuel IH]; intros j l Hi Hsq Hl Hj Hw; cbn [augment_row].
  - split; [reflexivity|]. intros a b Ha Hb. destruct (Nat.leb_spec j b), (Nat.ltb_spec b (cols m)); try lia; cbn [andb]; now rewrite andb_false_r.
  - destruct (IH (S j) (put l (i * (2 * cols m) + j) (nth (i * cols m + j) (data m) zero))) as [L H]; auto; [now rewrite put_length|lia|].
    split; [now rewrite L, put_length|]. intros a b Ha Hb. rewrite H by assumption. rewrite nth_put.
    destruct (Nat.eqb_spec (i * (2 * cols m) + j) (a * (2 * cols m) + b)) as [E|E].
    + apply idx_inj in E; [|lia|lia]. destruct E as [<- <-]. rewrite Nat.eqb_refl.
      destruct (Nat.leb_spec (S j) j), (Nat.leb_spec j j), (Nat.ltb_spec j (cols m)); try lia. cbn [andb].
      assert (i * (2 * cols m) + j < length l) by (rewrite Hl; apply idx_lt; lia).
      destruct (Nat.ltb_spec (i * (2 * cols m) + j) (length l)); [|lia].
      rewrite elem_in by assumption. symmetry. apply nth_error_nth'. rewrite Hw. now apply idx_lt.
    + destruct (Nat.eqb_spec a i) as [->|]; cbn [andb]; [|reflexivity].
      destruct (Nat.leb_spec (S j) b), (Nat.leb_spec j b); cbn [andb]; try reflexivity; lia.
Qed.

Lemma augment_rows_spec m fuel : forall i (l : list T), cols m = rows m -> length l = rows m * (2 * cols m) -> i + fuel = rows m -> wf m ->
  let l' := augment_rows zero one m i fuel l in
  length l' = length l /\
  forall a b, a < rows m -> b < 2 * cols m -> nth_error l' (a * (2 * cols m) + b) =
    if i <=? a then (if b <? cols m then elem m a b else if b =? a + rows m then Some one else nth_error l (a * (2 * cols m) + b))
    else nth_error l (a * (2 * cols m) + b).
Proof.
  induction fuel as [|fuel IH]; intros i l Hsq Hl Hf Hw; cbn [augment_rows].
  - split; [reflexivity|]. intros a b Ha Hb. destruct (Nat.leb_spec i a); [lia|reflexivity].
  - destruct (augment_row_spec m i (cols m) 0 l) as [L1 H1]; auto; [lia|].
    destruct (IH (S i) (put (augment_row zero m i 0 (cols m) l) (i * (2 * cols m) + (i + rows m)) one)) as [L2 H2]; auto; [rewrite put_length; lia|lia|].
    split; [rewrite L2, put_length; assumption|]. intros a b Ha Hb. rewrite H2 by assumption. rewrite !nth_put, H1 by assumption.
    destruct (Nat.eqb_spec (i * (2 * cols m) + (i + rows m)) (a * (2 * cols m) + b)) as [E|E].
    + apply idx_inj in E; [|lia|lia]. destruct E as [<- <-].
      assert (i * (2 * cols m) + (i + rows m) < length (augment_row zero m i 0 (cols m) l)) by (rewrite L1, Hl; apply idx_lt; lia).
      bool_cases; try lia; reflexivity.
    + bool_cases; subst; try lia; try reflexivity.
Qed.

Lemma augment_spec m : wf m -> rows m = cols m -> exists m', augment zero one m = Some m' /\
  is_matrix m' (rows m) (2 * cols m) (fun i j => if j <? cols m then elem m i j else Some (if j - cols m =? i then one else zero)).
Proof.
  intros Hw Hsq. unfold augment. destruct (Nat.eqb_spec (cols m) (rows m)); [|congruence]. eexists. split; [reflexivity|].
  destruct (augment_rows_spec m (rows m) 0 (repeat zero (rows m * (cols m * 2)))) as [L H]; auto; [rewrite repeat_length; lia|].
  replace (2 * cols m) with (cols m * 2) in * by lia.
  repeat split; [unfold wf; cbn [data rows cols]; rewrite L, repeat_length; lia|]. intros i j Hi Hj. rewrite elem_in by assumption. cbn [data cols].
  rewrite H by assumption. rewrite nth_repeat. cbn [Nat.leb].
  assert (i * (cols m * 2) + j < rows m * (cols m * 2)) by (apply idx_lt; lia). bool_cases; try lia; reflexivity.
Qed.

(** ** SwapInPlace *)
Lemma swap_loop_spec c r1 r2 n fuel : r1 < n -> r2 < n -> forall j (l : list T), length l = n * c -> j + fuel = c ->
  let l' := @swap_loop T c r1 r2 j fuel l in
  length l' = length l /\
  forall a b, a < n -> b < c -> nth_error l' (a * c + b) =
    if j <=? b then (if a =? r1 then nth_error l (r2 * c + b) else if a =? r2 then nth_error l (r1 * c + b) else nth_error l (a * c + b))
    else nth_error l (a * c + b).
Proof.
  intros H1 H2. induction fuel as [|fuel IH]; intros j l Hl Hj; cbn [swap_loop].
  - split; [reflexivity|]. intros a b Ha Hb. destruct (Nat.leb_spec j b); [lia|reflexivity].
  - destruct (IH (S j) (exchange l (r1 * c + j) (r2 * c + j))) as [L H]; [now rewrite exchange_length|lia|].
    split; [now rewrite L, exchange_length|]. intros a b Ha Hb. rewrite H by assumption.
    assert (B1 : r1 * c + j < length l) by (rewrite Hl; apply idx_lt; lia).
    assert (B2 : r2 * c + j < length l) by (rewrite Hl; apply idx_lt; lia).
    rewrite !nth_exchange by assumption.
    assert (Q : forall x y r, x < n -> y < c -> r < n -> (x * c + y =? r * c + j) = (x =? r) && (y =? j)).
    { intros x y r Hx Hy Hr. destruct (Nat.eqb_spec (x * c + y) (r * c + j)) as [E|E].
      - apply idx_inj in E; [|lia|lia]. destruct E as [-> ->]. now rewrite !Nat.eqb_refl.
      - destruct (Nat.eqb_spec x r), (Nat.eqb_spec y j); subst; cbn [andb]; try reflexivity. lia. }
    rewrite !Q by lia. bool_cases; subst; try lia; reflexivity.
Qed.

Lemma swap_rows_spec m r1 r2 : wf m -> (0 <= r1 < Z.of_nat (rows m))%Z -> (0 <= r2 < Z.of_nat (rows m))%Z ->
  exists m', swap_rows m r1 r2 = Some m' /\ is_matrix m' (rows m) (cols m)
    (fun i j => elem m (if i =? Z.to_nat r1 then Z.to_nat r2 else if i =? Z.to_nat r2 then Z.to_nat r1 else i) j).
Proof.
  intros Hw H1 H2. unfold swap_rows. destruct (Z.ltb_spec r1 0), (Z.leb_spec (Z.of_nat (rows m)) r1), (Z.ltb_spec r2 0), (Z.leb_spec (Z.of_nat (rows m)) r2); try lia.
  cbn [orb]. eexists. split; [reflexivity|].
  destruct (swap_loop_spec (cols m) (Z.to_nat r1) (Z.to_nat r2) (rows m) (cols m) ltac:(lia) ltac:(lia) 0 (data m) Hw eq_refl) as [L E].
  repeat split; [unfold wf; cbn [data rows cols]; now rewrite L|]. intros i j Hi Hj. rewrite elem_in by assumption. cbn [data cols].
  rewrite E by assumption. cbn [Nat.leb]. bool_cases; rewrite elem_in by lia; reflexivity.
Qed.

(** ** Identity, one-hot, element functions *)
Lemma identity_loop_spec size fuel : forall a (l : list T), length l = size * size -> size <= a + fuel -> 
  let l' := identity_loop one size (a * (size + 1)) fuel l in
  length l' = length l /\
  forall i j, i < size -> j < size -> nth_error l' (i * size + j) = if (a <=? i) && (i =? j) then Some one else nth_error l (i * size + j).
Proof.
  induction fuel as [|fuel IH]; intros a l Hl Hf; cbn [identity_loop].
  - split; [reflexivity|]. intros i j Hi Hj. destruct (Nat.leb_spec a i); [lia|reflexivity].
  - destruct (Nat.ltb_spec (a * (size + 1)) (size * size)) as [B|B].
    + replace (a * (size + 1) + (size + 1)) with (S a * (size + 1)) by lia.
      destruct (IH (S a) (put l (a * (size + 1)) one)) as [L H]; [now rewrite put_length|lia|].
      split; [now rewrite L, put_length|]. intros i j Hi Hj. rewrite H by assumption. rewrite nth_put.
      assert (Ha : a < size) by nia.
      destruct (Nat.eqb_spec (a * (size + 1)) (i * size + j)) as [E|E].
      * assert (E' : a * size + a = i * size + j) by lia. apply idx_inj in E'; [|lia|lia]. destruct E' as [<- <-].
        pose proof (idx_lt _ _ _ _ Ha Ha). bool_cases; try lia; reflexivity.
      * bool_cases; subst; try lia; try reflexivity. exfalso. apply E. assert (a = j) by lia. subst. lia.
    + split; [reflexivity|]. intros i j Hi Hj. destruct (Nat.leb_spec a i); cbn [andb]; [|reflexivity]. nia.
Qed.

Lemma identity_spec size : is_matrix (mkDense size size (identity_data zero one size)) size size (fun i j => Some (if i =? j then one else zero)).
Proof.
  unfold identity_data. destruct (identity_loop_spec size (size * size) 0 (repeat zero (size * size))) as [L H]; [apply repeat_length|nia|].
  cbn [Nat.mul] in L, H. repeat split; [unfold wf; cbn [data rows cols]; now rewrite L, repeat_length|]. intros i j Hi Hj.
  rewrite elem_in by assumption. cbn [data cols]. rewrite H by assumption. cbn [Nat.leb andb]. rewrite nth_repeat.
  pose proof (idx_lt _ _ _ _ Hi Hj). bool_cases; try lia; reflexivity.
Qed.

Lemma one_hot_spec size index l : one_hot zero one size index = Some l <->
  (0 <= index < size)%Z /\ length l = Z.to_nat size /\ forall k, k < Z.to_nat size -> nth_error l k = Some (if k =? Z.to_nat index then one else zero).
Proof.
  unfold one_hot. destruct (Z.ltb_spec size 0); [split; [discriminate|lia]|].
  destruct (Z.ltb_spec index 0), (Z.leb_spec size index); cbn [orb]; try (split; [discriminate|lia]).
  assert (G : forall k, nth_error (put (repeat zero (Z.to_nat size)) (Z.to_nat index) one) k = if k <? Z.to_nat size then Some (if k =? Z.to_nat index then one else zero) else None).
  { intros k. rewrite nth_put, nth_repeat, repeat_length. bool_cases; subst; try lia; reflexivity. }
  split.
  - intros E. injection E as <-. split; [lia|]. split; [now rewrite put_length, repeat_length|]. intros k Hk. rewrite G. destruct (Nat.ltb_spec k (Z.to_nat size)); [reflexivity|lia].
  - intros (_ & L & E). f_equal. apply nth_ext. intros k. rewrite G. destruct (Nat.ltb_spec k (Z.to_nat size)); [now rewrite E|]. symmetry. apply nth_error_None. lia.
Qed.

Lemma walk_length {U V} c (fn : nat -> nat -> U -> V) l : forall r k, length (walk c fn r k l) = length l.
Proof. induction l as [|x l IH]; intros r k; cbn [walk]; [reflexivity|]. destruct (S k =? c); cbn; now rewrite IH. Qed.

Lemma walk_nth {U V} c (fn : nat -> nat -> U -> V) l : forall r k p, k < c ->
  nth_error (walk c fn r k l) p = option_map (fn (r + (k + p) / c) ((k + p) mod c)) (nth_error l p).
Proof.
  induction l as [|x l IH]; intros r k p Hk; cbn [walk]; [now destruct p|].
  destruct p as [|p].
  - cbn. rewrite Nat.add_0_r, Nat.div_small, Nat.mod_small, Nat.add_0_r by lia. now destruct (S k =? c).
  - destruct (Nat.eqb_spec (S k) c) as [E|E]; cbn [nth_error].
    + rewrite IH by lia. replace (k + S p) with (p + 1 * c) by lia. rewrite Nat.div_add, Nat.mod_add, Nat.add_0_l by lia. f_equal. f_equal. lia.
    + rewrite IH by lia. replace (k + S p) with (S k + p) by lia. reflexivity.
Qed.

Lemma initialize_spec r c fn : is_matrix (mkDense r c (initialize zero r c fn)) r c (fun i j => Some (fn i j)).
Proof.
  unfold initialize. repeat split; [unfold wf; cbn [data rows cols]; now rewrite walk_length, repeat_length|]. intros i j Hi Hj.
  rewrite elem_in by assumption. cbn [data cols]. rewrite walk_nth by lia. rewrite !Nat.add_0_l, nth_repeat, idx_div, idx_mod by assumption.
  pose proof (idx_lt _ _ _ _ Hi Hj). destruct (Nat.ltb_spec (i * c + j) (r * c)); [reflexivity|lia].
Qed.

Lemma apply_spec m fn : wf m -> is_matrix (apply m fn) (rows m) (cols m) (fun i j => option_map (fn i j) (elem m i j)).
Proof.
  intros Hw. unfold apply. repeat split; [unfold wf; cbn [data rows cols]; now rewrite walk_length|]. intros i j Hi Hj.
  rewrite !elem_in by assumption. cbn [data cols]. rewrite walk_nth by lia. now rewrite !Nat.add_0_l, idx_div, idx_mod by assumption.
Qed.

Lemma apply_in_place_spec m fn a : wf m -> wf a ->
  apply_in_place m fn a = if (rows m =? rows a) && (cols m =? cols a) then Some (apply a fn) else None.
Proof.
  intros Hw Ha. unfold apply_in_place, same_dims, apply. destruct (Nat.eqb_spec (rows m) (rows a)), (Nat.eqb_spec (cols m) (cols a)); cbn [andb]; try reflexivity.
  now rewrite e, e0.
Qed.

Lemma apply_row_spec (a : dense T) fn r fuel : wf a -> r < rows a -> forall c (l : list T), length l = rows a * cols a -> c + fuel = cols a ->
  let l' := apply_row zero a fn r c fuel l in
  length l' = length l /\
  forall i j, i < rows a -> j < cols a -> nth_error l' (i * cols a + j) = if (i =? r) && (c <=? j) then option_map (fn r j) (elem a r j) else nth_error l (i * cols a + j).
Proof.
  intros Ha Hr. induction fuel as [|fuel IH]; intros c l Hl Hc; cbn [apply_row].
  - split; [reflexivity|]. intros i j Hi Hj. destruct (Nat.leb_spec c j); [lia|]. now rewrite andb_false_r.
  - destruct (IH (S c) (put l (r * cols a + c) (fn r c (nth (r * cols a + c) (data a) zero)))) as [L H]; [now rewrite put_length|lia|].
    split; [now rewrite L, put_length|]. intros i j Hi Hj. rewrite H by assumption. rewrite nth_put.
    destruct (Nat.eqb_spec (r * cols a + c) (i * cols a + j)) as [E|E].
    + apply idx_inj in E; [|lia|lia]. destruct E as [<- <-]. assert (Hlt : r * cols a + c < rows a * cols a) by (apply idx_lt; lia).
      rewrite elem_in by assumption. rewrite (nth_error_nth' (data a) zero) by now rewrite Ha. cbn [option_map].
      bool_cases; try lia; reflexivity.
    + bool_cases; subst; try lia; reflexivity.
Qed.
Lemma apply_all_spec (a : dense T) fn fuel : wf a -> forall r (l : list T), length l = rows a * cols a -> r + fuel = rows a ->
  let l' := apply_all zero a fn r fuel l in
  length l' = length l /\
  forall i j, i < rows a -> j < cols a -> nth_error l' (i * cols a + j) = if r <=? i then option_map (fn i j) (elem a i j) else nth_error l (i * cols a + j).
Proof.
  intros Ha. induction fuel as [|fuel IH]; intros r l Hl Hr; cbn [apply_all].
  - split; [reflexivity|]. intros i j Hi Hj. destruct (Nat.leb_spec r i); [lia|]. reflexivity.
  - destruct (apply_row_spec a fn r (cols a) Ha ltac:(lia) 0 l Hl eq_refl) as [L1 H1].
    destruct (IH (S r) (apply_row zero a fn r 0 (cols a) l)) as [L H]; [lia|lia|].
    split; [lia|]. intros i j Hi Hj. rewrite H, H1 by assumption. bool_cases; subst; try lia; reflexivity.
Qed.
Lemma apply_alpha_in_place_spec m fn a : wf m -> wf a ->
  apply_alpha_in_place zero m fn a = if (rows m =? rows a) && (cols m =? cols a) then Some (apply a fn) else None.
Proof.
  intros Hw Ha. unfold apply_alpha_in_place, same_dims. destruct (Nat.eqb_spec (rows m) (rows a)) as [R|R], (Nat.eqb_spec (cols m) (cols a)) as [C|C]; cbn [andb]; try reflexivity.
  f_equal. destruct (apply_all_spec a fn (rows m) Ha 0 (data m)) as [L H]; [rewrite Hw; congruence|lia|].
  apply (is_matrix_unique _ _ (rows a) (cols a) (fun i j => option_map (fn i j) (elem a i j))); [|now apply apply_spec].
  repeat split; cbn [rows cols]; auto; [unfold wf; cbn [data rows cols]; now rewrite L|]. intros i j Hi Hj.
  rewrite elem_in by (cbn; lia). cbn [data cols]. rewrite C, H by assumption. reflexivity.
Qed.

(** ** DoNonZero *)
Lemma flat_map_shift {B} (f g : nat -> list B) l : (forall k, f (S k) = g k) -> flat_map f (map S l) = flat_map g l.
Proof. intros H. induction l as [|x l IH]; cbn [map flat_map]; [reflexivity|]. now rewrite H, IH. Qed.
Lemma nonzero_row_spec is_zero (l : list T) r fuel : forall c di, nonzero_row zero is_zero l r c di fuel =
  flat_map (fun k => let v := nth (di + k) l zero in if is_zero v then [] else [(r, c + k, v)]) (seq 0 fuel).
Proof.
  induction fuel as [|fuel IH]; intros c di; cbn [nonzero_row seq flat_map]; [reflexivity|]. rewrite !Nat.add_0_r. f_equal.
  rewrite IH, <- seq_shift. symmetry. apply flat_map_shift. intros k.
  replace (di + S k) with (S di + k) by lia. replace (c + S k) with (S c + k) by lia. reflexivity.
Qed.
Lemma nonzero_rows_spec is_zero (l : list T) cs fuel : forall r di, nonzero_rows zero is_zero l cs r di fuel =
  flat_map (fun i => flat_map (fun k => let v := nth (di + i * cs + k) l zero in if is_zero v then [] else [(r + i, k, v)]) (seq 0 cs)) (seq 0 fuel).
Proof.
  induction fuel as [|fuel IH]; intros r di; cbn [nonzero_rows seq flat_map]; [reflexivity|]. f_equal.
  - rewrite nonzero_row_spec, Nat.mul_0_l, !Nat.add_0_r. reflexivity.
  - rewrite IH, <- seq_shift. symmetry. apply flat_map_shift. intros k.
    replace (r + S k) with (S r + k) by lia. replace (di + S k * cs) with (di + cs + k * cs) by lia. reflexivity.
Qed.

(** Every non-zero element is visited once, in row-major order, with its indices. *)
Lemma do_non_zero_spec is_zero m : wf m -> do_non_zero zero is_zero m =
  flat_map (fun i => flat_map (fun j => match elem m i j with Some v => if is_zero v then [] else [(i, j, v)] | None => [] end) (seq 0 (cols m))) (seq 0 (rows m)).
Proof.
  intros Hw. unfold do_non_zero. rewrite nonzero_rows_spec.
  assert (E : forall (f g : nat -> list (nat * nat * T)) l, (forall x, In x l -> f x = g x) -> flat_map f l = flat_map g l).
  { intros f g l. induction l as [|x l IH]; intros H; cbn; [reflexivity|]. rewrite H by now left. rewrite IH; [reflexivity|]. intros y Hy. apply H. now right. }
  apply E. intros i Hi. apply E. intros j Hj. apply in_seq in Hi, Hj. cbn zeta.
  rewrite elem_in by lia. rewrite (nth_error_nth' (data m) zero) by (rewrite Hw; apply idx_lt; lia). reflexivity.
Qed.

(** ** Construction *)
Lemma from_slice_spec (d : list T) r c : 
  from_slice d (Some [r; c]) = (if ((0 <=? r) && (0 <=? c) && (Z.of_nat (length d) =? r * c))%Z then Some (mkDense (Z.to_nat r) (Z.to_nat c) d) else None) /\
  from_slice d None = Some (column d).
Proof.
  split; [|reflexivity]. cbn [from_slice]. destruct (Z.ltb_spec r 0), (Z.leb_spec 0 r), (Z.ltb_spec c 0), (Z.leb_spec 0 c); cbn [andb orb]; try lia; reflexivity.
Qed.
Lemma from_slice_wf d shape m : @from_slice T d shape = Some m -> wf m /\ data m = d.
Proof.
  destruct shape as [[|r [|c [|? ?]]]|]; cbn [from_slice]; try discriminate; unfold wf.
  - destruct (Z.ltb_spec r 0); cbn [orb]; [discriminate|]. cbn [Z.ltb Z.compare]. destruct (Z.eqb_spec (Z.of_nat (length d)) (r * 1)); [|discriminate].
    intros E. injection E as <-. cbn. split; [|reflexivity]. change (Pos.to_nat 1) with 1. nia.
  - destruct (Z.ltb_spec r 0), (Z.ltb_spec c 0); cbn [orb]; try discriminate. destruct (Z.eqb_spec (Z.of_nat (length d)) (r * c)) as [E|]; [|discriminate].
    intros E'. injection E' as <-. cbn. split; [|reflexivity]. apply Nat2Z.inj. rewrite E, Nat2Z.inj_mul, !Z2Nat.id by lia. reflexivity.
  - intros E. injection E as <-. cbn. split; [lia|reflexivity].
Qed.
End T.

(** ** The statements of the property file *)
Section S.
Context {T : Type}.
Implicit Types m : dense T.

Lemma pieces_prefix sizes : forall l : list T, list_sum sizes <= length l ->
  concat (pieces l sizes) = firstn (list_sum sizes) l /\ map (@length T) (pieces l sizes) = sizes.
Proof.
  induction sizes as [|s sizes IH]; intros l H; cbn [pieces concat map list_sum fold_right]; [auto|]. cbn [list_sum fold_right] in H. fold (list_sum sizes) in *.
  destruct (IH (skipn s l)) as [E1 E2]; [rewrite skipn_length; lia|]. rewrite E1, E2. split.
  - rewrite <- (firstn_skipn s l) at 3. rewrite firstn_app, firstn_length, firstn_firstn.
    replace (Nat.min (s + list_sum sizes) s) with s by lia. replace (s + list_sum sizes - Nat.min s (length l)) with (list_sum sizes) by lia. reflexivity.
  - f_equal. rewrite firstn_length. lia.
Qed.

Lemma split_statement m sizes : wf m ->
  (forall ms, split_v m [] sizes = Some ms ->
     ms = map column (map data ms) /\ map (fun x => Z.of_nat (length (data x))) ms = sizes /\
     concat (map data ms) = firstn (length (concat (map data ms))) (data m)) /\
  ((exists ms, split_v m [] sizes = Some ms) <->
     is_vector m = true /\ Forall (fun s => (0 <= s)%Z) sizes /\ (fold_right Z.add 0 sizes <= Z.of_nat (rows m * cols m))%Z).
Proof.
  intros Hw. destruct (split_spec m sizes Hw) as [H1 H2].
  assert (Hsum : Forall (fun s => (0 <= s)%Z) sizes -> fold_right Z.add 0%Z sizes = Z.of_nat (list_sum (map Z.to_nat sizes))).
  { clear. intros F. induction F as [|s sizes Hs F IH]; cbn [fold_right map list_sum]; [reflexivity|]. fold (list_sum (map Z.to_nat sizes)). rewrite IH. lia. }
  split.
  - intros ms E. pose proof (proj1 H2 (ex_intro _ ms E)) as (V & F & S). apply H1 in E. subst ms.
    destruct (pieces_prefix (map Z.to_nat sizes) (data m)) as [E1 E2]; [now rewrite Hw|].
    rewrite !map_map. cbn [data column]. rewrite map_id. split; [reflexivity|]. split.
    + rewrite <- (map_map (@length T) Z.of_nat), E2, map_map. clear - F. induction F as [|s sizes Hs F IH]; cbn [map]; [reflexivity|]. rewrite IH, Z2Nat.id by assumption. reflexivity.
    + rewrite E1. rewrite firstn_length. rewrite Hw. f_equal. lia.
  - rewrite H2. split; intros (V & F & S); (split; [assumption|split; [assumption|]]); rewrite (Hsum F) in *; lia.
Qed.

Lemma set_other m v r c m' : wf m -> set_ m v [r; c] = Some m' ->
  is_matrix m' (rows m) (cols m) (fun i j => if (i =? Z.to_nat r) && (j =? Z.to_nat c) then Some v else elem m i j).
Proof.
  intros Hw E. destruct (Z_lt_dec r 0), (Z_lt_dec c 0), (Z_lt_dec r (Z.of_nat (rows m))), (Z_lt_dec c (Z.of_nat (cols m)));
  try (exfalso; unfold set_ in E; rewrite offset_two in E;
       destruct (Z.leb_spec 0 r), (Z.leb_spec 0 c), (Z.ltb_spec r (Z.of_nat (rows m))), (Z.ltb_spec c (Z.of_nat (cols m))); cbn [andb] in E; try discriminate; lia).
  destruct (set_two m v r c Hw) as (m2 & E2 & H); [lia|lia|]. congruence.
Qed.

Lemma set_at m v idx m' : wf m -> set_ m v idx = Some m' -> at_ m' idx = Some v.
Proof.
  intros Hw. unfold set_, at_. destruct (offset m idx) as [k|] eqn:E; [|discriminate].
  destruct (Nat.ltb_spec k (length (data m))) as [H|H]; [|discriminate]. intros Em. injection Em as <-.
  assert (E' : offset (mkDense (rows m) (cols m) (put (data m) k v)) idx = Some k).
  { rewrite <- E. unfold offset. cbn [rows cols data]. now rewrite put_length. }
  rewrite E'. cbn [data]. rewrite nth_put, Nat.eqb_refl. apply Nat.ltb_lt in H. now rewrite H.
Qed.

Lemma at_one m i : wf m -> at_ m [i] = if is_vector m && ((0 <=? i) && (i <? Z.of_nat (rows m * cols m)))%Z then nth_error (data m) (Z.to_nat i) else None.
Proof. intros Hw. unfold at_. rewrite offset_one by assumption. now destruct (is_vector m && ((0 <=? i) && (i <? Z.of_nat (rows m * cols m)))%Z). Qed.

Lemma set_panics m v r c : wf m -> set_ m v [r; c] = None <-> ~ (0 <= r < Z.of_nat (rows m) /\ 0 <= c < Z.of_nat (cols m))%Z.
Proof.
  intros Hw. rewrite (proj2 (at_set_defined m [r; c] v Hw)). rewrite offset_two.
  destruct (Z.leb_spec 0 r), (Z.leb_spec 0 c), (Z.ltb_spec r (Z.of_nat (rows m))), (Z.ltb_spec c (Z.of_nat (cols m))); cbn [andb]; split; intros; try discriminate; try reflexivity; try lia.
Qed.
End S.
