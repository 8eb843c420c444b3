(** * C39, C40: attention *)
From Coq Require Import Reals List Arith Bool Lia Lra.
From Verif Require Import DenseModel DenseSpec GradModel GradSpec GradLemmas GradProofs6 OpsModel OpsSpec AttModel AttSpec AttProofs MhaModel MhaSpec MhaProofs.
Import ListNotations.
Open Scope nat_scope.

Lemma nth_outputs {A} (f : nat -> A) m k : k < m -> nth_error (map f (seq 0 m)) k = Some (f k).
Proof. intros H. erewrite map_nth_error; [reflexivity|]. rewrite (nth_error_nth' _ 0) by (rewrite seq_length; auto). now rewrite seq_nth. Qed.

(** ** C39 *)
(** With a causal mask, position i gives the average of the values up to i, weighted by the softmax of their keys' scores. *)
Theorem C39_causal_value : forall wide m d dk dv s xs, model_fits m d dk dv s -> sa_causal m = true -> xs <> [] -> List.Forall (is_vec d) xs ->
  exists ws c, self_forward wide m None xs xs = Some (map (causal_output m dk dv s xs) (seq 0 (length xs)), ws, c).
Proof. intros wide m d dk dv s xs F C Hne Fx. destruct (causal_value wide m d dk dv s F xs C Hne Fx) as (ws & E). exists ws. eexists. exact E. Qed.
Print Assumptions C39_causal_value.

(** So it does not depend on the later inputs. *)
Theorem C39_causal : forall wide m d dk dv s xs xs' i, model_fits m d dk dv s -> sa_causal m = true ->
  List.Forall (is_vec d) xs -> List.Forall (is_vec d) xs' -> i < length xs -> i < length xs' -> firstn (S i) xs = firstn (S i) xs' ->
  exists o ws c o' ws' c', self_forward wide m None xs xs = Some (o, ws, c) /\ self_forward wide m None xs' xs' = Some (o', ws', c') /\
    exists y, nth_error o i = Some y /\ nth_error o' i = Some y.
Proof.
  intros wide m d dk dv s xs xs' i F C Fx Fx' Hi Hi' E.
  destruct (causal_value wide m d dk dv s F xs C) as (ws & E1); [destruct xs; [cbn in Hi; lia|discriminate]|auto|].
  destruct (causal_value wide m d dk dv s F xs' C) as (ws' & E2); [destruct xs'; [cbn in Hi'; lia|discriminate]|auto|].
  do 6 eexists. split; [exact E1|]. split; [exact E2|]. rewrite !nth_outputs by auto.
  eexists. split; [reflexivity|]. f_equal. unfold causal_output. rewrite E. f_equal. f_equal.
  rewrite <- (kth_firstn xs (S i) i), <- (kth_firstn xs' (S i) i) by lia. now rewrite E.
Qed.
Print Assumptions C39_causal.

(** Without a mask every position sees every input. *)
Theorem C39_unmasked_value : forall wide m d dk dv s qs xs, model_fits m d dk dv s -> sa_causal m = false -> xs <> [] ->
  List.Forall (is_vec d) qs -> List.Forall (is_vec d) xs ->
  exists ws c, self_forward wide m None qs xs = Some (map (fun q => attended dv s (layer dk (sa_query m) q) (map (layer dk (sa_key m)) xs) (map (layer dv (sa_value m)) xs)) qs, ws, c).
Proof.
  intros wide m d dk dv s qs xs F C Hne Fq Fx. rewrite (forward_first wide m d dk dv s F qs xs Hne Fq Fx) by (rewrite C; discriminate). rewrite C. cbn [andb]. do 2 eexists. do 3 f_equal.
  unfold indexed, seen_by. generalize 0. induction qs as [|q qs IH]; intros a; cbn; [reflexivity|]. inversion Fq; subst. now rewrite IH.
Qed.
Print Assumptions C39_unmasked_value.

(** Fed in pieces through the cache, the first of any length and then one input at a time, the outputs are those of the whole sequence. *)
Theorem C39_incremental_partial : forall wide m d dk dv s p rest, model_fits m d dk dv s -> sa_causal m = true -> sa_cross m = false ->
  p <> [] -> List.Forall (is_vec d) (p ++ rest) ->
  exists outs ws c, self_forward wide m None (p ++ rest) (p ++ rest) = Some (outs, ws, c) /\
    decode wide m None (p :: map (fun x => [x]) rest) = Some outs /\ length outs = length (p ++ rest).
Proof.
  intros wide m d dk dv s p rest F C Cr Hne Fx. destruct (causal_value wide m d dk dv s F (p ++ rest) C) as (ws & E); [destruct p; [congruence|discriminate]|auto|].
  do 3 eexists. split; [exact E|]. split; [apply (decode_value wide m d dk dv s F); auto|]. now rewrite map_length, seq_length.
Qed.
Print Assumptions C39_incremental_partial.

(** In a later piece of more than one input, the i-th position only sees the first i+1 inputs
    of the whole sequence: the mask does not count the inputs in the cache. *)
Theorem C39_later_piece_sees_too_little : forall wide m d dk dv s p p2, model_fits m d dk dv s -> sa_causal m = true -> sa_cross m = false ->
  p <> [] -> 1 < length p2 -> List.Forall (is_vec d) p -> List.Forall (is_vec d) p2 ->
  exists o1 ws1 c1 ws2 c2, self_forward wide m None p p = Some (o1, ws1, c1) /\
    self_forward wide m (Some c1) p2 p2 = Some (map (fun i => attended dv s (layer dk (sa_query m) (kth p2 i))
      (map (layer dk (sa_key m)) (firstn (S i) (p ++ p2))) (map (layer dv (sa_value m)) (firstn (S i) (p ++ p2)))) (seq 0 (length p2)), ws2, c2).
Proof.
  intros wide m d dk dv s p p2 F C Cr Hne L Fp Fp2. destruct (causal_value wide m d dk dv s F p C Hne Fp) as (ws & E).
  destruct (forward_chunk wide m d dk dv s F p p2 Hne Fp Fp2 Cr) as (ws2 & E2). do 5 eexists. split; [exact E|]. rewrite E2. do 3 f_equal.
  rewrite C. destruct (Nat.ltb_spec 1 (length p2)); [|lia]. cbn [andb seen_by].
  exact (indexed_outputs (fun i q => attended dv s (layer dk (sa_query m) q) (map (layer dk (sa_key m)) (firstn (S i) (p ++ p2))) (map (layer dv (sa_value m)) (firstn (S i) (p ++ p2)))) (mkDense 0 0 []) p2).
Qed.
Print Assumptions C39_later_piece_sees_too_little.

(** a one-dimensional model: queries 0, keys and values the inputs themselves *)
Definition one_by_one (w : R) : linear := mkLinear (scalar w) (scalar 0%R).
Definition small_model : self_attention := mkSelf (one_by_one 0) (one_by_one 1) (one_by_one 1) (scalar 1%R) true false.
Lemma scalar_fits v : fits (scalar v) 1 1.
Proof. repeat split. Qed.
Lemma small_fits : model_fits small_model 1 1 1 1.
Proof. repeat split. Qed.
Definition inputs : list mat := [scalar 0%R; scalar 1%R; scalar 2%R].
Lemma inputs_fit : List.Forall (is_vec 1) inputs.
Proof. repeat constructor. Qed.
Lemma small_layer w v : layer 1 (one_by_one w) (scalar v) = scalar (w * v)%R.
Proof.
  unfold layer, vec, column, scalar. cbn [rows lin_b lin_w one_by_one map seq length]. do 2 f_equal.
  unfold entry, Rsum, rget. cbn. ring.
Qed.
Lemma small_average q ks vs : (q = scalar 0%R) -> attended 1 1 q ks vs = scalar (Rsum (length ks) (fun j => entry (kth vs j) 0) / INR (length ks))%R.
Proof.
  intros ->. unfold attended, vec, column, scalar at 2. cbn [map seq length]. do 2 f_equal.
  rewrite (Rsum_ext _ _ (fun j => entry (kth vs j) 0 * / INR (length ks))%R); [rewrite Rsum_mult_r; reflexivity|]. intros j Hj. rewrite Rmult_comm. f_equal. unfold weight.
  assert (Z : forall k, score 1 (scalar 0%R) k = 0%R) by (intros k; unfold score, size, Rsum, entry; cbn; ring).
  rewrite Z, (Rsum_ext _ _ (fun _ => 1%R)) by (intros; rewrite Z; apply exp_0). rewrite Rsum_const, exp_0. unfold Rdiv. now rewrite Rmult_1_l, Rmult_1_r.
Qed.
Example C39_case : model_fits small_model 1 1 1 1 /\ sa_causal small_model = true /\ List.Forall (is_vec 1) inputs /\
  map (causal_output small_model 1 1 1 inputs) (seq 0 3) = [scalar 0%R; scalar (1 / 2)%R; scalar 1%R].
Proof.
  split; [exact small_fits|]. split; [reflexivity|]. split; [exact inputs_fit|]. cbn [map seq inputs]. unfold causal_output, kth, inputs. cbv zeta. cbn [nth firstn map sa_query sa_key sa_value small_model]. rewrite !small_layer.
  rewrite !small_average by (f_equal; ring). unfold Rsum, entry, kth. cbn. f_equal; [|f_equal; [|f_equal]]; f_equal; lra.
Qed.
(** So pieces of other lengths give other outputs: for the inputs 0, 1, 2 cut after the first, the second output is 0 instead of 1/2. *)
Theorem C39_incremental_refuted : forall wide, exists ws c, self_forward wide small_model None inputs inputs = Some ([scalar 0%R; scalar (1 / 2)%R; scalar 1%R], ws, c) /\
  decode wide small_model None [[scalar 0%R]; [scalar 1%R; scalar 2%R]] = Some [scalar 0%R; scalar 0%R; scalar (1 / 2)%R].
Proof.
  intros wide. destruct (C39_causal_value wide small_model 1 1 1 1 inputs small_fits eq_refl ltac:(discriminate) inputs_fit) as (ws & c & E). exists ws, c. split.
  - rewrite E. do 3 f_equal. apply C39_case.
  - destruct (C39_later_piece_sees_too_little wide small_model 1 1 1 1 [scalar 0%R] [scalar 1%R; scalar 2%R] small_fits eq_refl eq_refl ltac:(discriminate) ltac:(cbn; lia) ltac:(repeat constructor) ltac:(repeat constructor)) as (o1 & ws1 & c1 & ws2 & c2 & E1 & E2).
    destruct (causal_value wide small_model 1 1 1 1 small_fits [scalar 0%R] eq_refl ltac:(discriminate) ltac:(repeat constructor)) as (ws' & E1').
    cbn [decode]. rewrite E1. cbn [bind fst snd]. rewrite E2. cbn [bind fst snd]. rewrite E1' in E1. injection E1 as <- _ _.
    cbn [map seq length app firstn]. unfold causal_output, kth, inputs. cbv zeta. cbn [nth firstn map sa_query sa_key sa_value small_model]. rewrite !small_layer. rewrite !small_average by (f_equal; ring).
    unfold Rsum, entry, kth. cbn. f_equal. f_equal; [|f_equal; [|f_equal]]; f_equal; lra.
Qed.
Print Assumptions C39_incremental_refuted.

(** ** C40 *)
(** If the heads give vectors, one per query, the i-th output is the merge layer applied to the concatenation of their outputs at i. *)
Theorem C40_values : forall wide m caches q x rs dv dm, mh_heads m <> [] -> length caches = length (mh_heads m) ->
  each (fun '(h, c) => self_forward wide h c q x) (combine (mh_heads m) caches) = Some rs ->
  List.Forall (fun r => length (fst (fst r)) = length q /\ List.Forall (is_vec dv) (fst (fst r))) rs ->
  linear_fits (mh_merge m) dm (length (mh_heads m) * dv) ->
  exists buf, mha_forward wide m caches q x =
    Some (map (fun i => layer dm (mh_merge m) (joined (length (mh_heads m)) (nth_out rs) i)) (seq 0 (length q)), map snd rs, buf).
Proof. intros wide m caches q x rs dv dm H1 H2 H3 H4 H5. eexists. exact (mha_value wide m caches q x rs dv dm H1 H2 H3 H4 H5). Qed.
Print Assumptions C40_values.

(** But the operands of the concatenation at position i are, once Forward has returned, not the heads'
    outputs: operand k is the concatenation at position i*n+k itself whenever there is one. *)
Theorem C40_operands : forall wide m caches q x rs dv dm, mh_heads m <> [] -> length caches = length (mh_heads m) ->
  each (fun '(h, c) => self_forward wide h c q x) (combine (mh_heads m) caches) = Some rs ->
  List.Forall (fun r => length (fst (fst r)) = length q /\ List.Forall (is_vec dv) (fst (fst r))) rs ->
  linear_fits (mh_merge m) dm (length (mh_heads m) * dv) ->
  forall o c buf, mha_forward wide m caches q x = Some (o, c, buf) ->
  let n := length (mh_heads m) in
  forall i, i < length q -> operands n buf i =
    map (fun k => if i * n + k <? length q then Cat (i * n + k) (joined n (nth_out rs) (i * n + k)) else HeadOut k i (nth_out rs k i)) (seq 0 n).
Proof.
  intros wide m caches q x rs dv dm H1 H2 H3 H4 H5 o c buf E n i Hi. rewrite (mha_value wide m caches q x rs dv dm H1 H2 H3 H4 H5) in E. injection E as _ _ <-.
  apply operands_value; [unfold n; destruct (mh_heads m); [congruence|cbn; lia]|auto].
Qed.
Print Assumptions C40_operands.

(** So for any model, any number of heads and any sequence, the first concatenation is its own operand,
    and asking whether it requires gradients, as Backward does, never returns. *)
Theorem C40_acyclic_refuted : forall wide m caches q x rs dv dm, mh_heads m <> [] -> length caches = length (mh_heads m) ->
  each (fun '(h, c) => self_forward wide h c q x) (combine (mh_heads m) caches) = Some rs ->
  List.Forall (fun r => length (fst (fst r)) = length q /\ List.Forall (is_vec dv) (fst (fst r))) rs ->
  linear_fits (mh_merge m) dm (length (mh_heads m) * dv) -> q <> [] ->
  forall o c buf, mha_forward wide m caches q x = Some (o, c, buf) ->
  exists v rest, operands (length (mh_heads m)) buf 0 = Cat 0 v :: rest /\
    forall head_req fuel, 2 <= fuel -> requires_grad (operands (length (mh_heads m)) buf) head_req fuel [] (Cat 0 v) = Blocks.
Proof.
  intros wide m caches q x rs dv dm H1 H2 H3 H4 H5 Hq o c buf E.
  pose proof (C40_operands wide m caches q x rs dv dm H1 H2 H3 H4 H5 o c buf E 0 ltac:(destruct q; [congruence|cbn; lia])) as P. cbv zeta in P.
  assert (X : exists v rest, operands (length (mh_heads m)) buf 0 = Cat 0 v :: rest).
  { rewrite P. destruct (mh_heads m); [congruence|]. destruct q; [congruence|]. cbn [length seq map Nat.mul Nat.add]. change (0 <? S (length q)) with true. cbn iota. do 2 eexists. reflexivity. }
  destruct X as (v & rest & X). exists v, rest. split; [exact X|]. intros head_req fuel Hf. now apply requires_blocks with (l := rest).
Qed.
Print Assumptions C40_acyclic_refuted.

(** The operands of the later concatenations are right. *)
Theorem C40_operands_partial : forall wide m caches q x rs dv dm, mh_heads m <> [] -> length caches = length (mh_heads m) ->
  each (fun '(h, c) => self_forward wide h c q x) (combine (mh_heads m) caches) = Some rs ->
  List.Forall (fun r => length (fst (fst r)) = length q /\ List.Forall (is_vec dv) (fst (fst r))) rs ->
  linear_fits (mh_merge m) dm (length (mh_heads m) * dv) ->
  forall o c buf, mha_forward wide m caches q x = Some (o, c, buf) ->
  forall i, i < length q -> length q <= i * length (mh_heads m) ->
  operands (length (mh_heads m)) buf i = map (fun k => HeadOut k i (nth_out rs k i)) (seq 0 (length (mh_heads m))).
Proof.
  intros wide m caches q x rs dv dm H1 H2 H3 H4 H5 o c buf E i Hi Hl. rewrite (C40_operands wide m caches q x rs dv dm H1 H2 H3 H4 H5 o c buf E i Hi). apply map_ext. intros k.
  destruct (Nat.ltb_spec (i * length (mh_heads m) + k) (length q)); [lia|reflexivity].
Qed.
Print Assumptions C40_operands_partial.

(** Two heads of the model above meet the hypotheses. *)
Definition two_heads : multi_head := mkMulti [small_model; small_model] (mkLinear (mkDense 1 2 [1%R; 1%R]) (scalar 0%R)).
Example C40_case : exists rs, each (fun '(h, c) => self_forward true h c inputs inputs) (combine (mh_heads two_heads) [None; None]) = Some rs /\
  length rs = 2 /\ List.Forall (fun r => length (fst (fst r)) = length inputs /\ List.Forall (is_vec 1) (fst (fst r))) rs /\
  linear_fits (mh_merge two_heads) 1 (length (mh_heads two_heads) * 1).
Proof.
  destruct (C39_causal_value true small_model 1 1 1 1 inputs small_fits eq_refl ltac:(discriminate) inputs_fit) as (ws & c & E).
  cbn [mh_heads two_heads combine each]. rewrite E. cbn [bind]. eexists. split; [reflexivity|]. split; [reflexivity|]. split; [|repeat split].
  assert (F : List.Forall (is_vec 1) (map (causal_output small_model 1 1 1 inputs) (seq 0 (length inputs)))).
  { apply Forall_forall. intros y Hy. apply in_map_iff in Hy. destruct Hy as (i & <- & _). apply vec_fits. }
  repeat constructor; exact F.
Qed.
