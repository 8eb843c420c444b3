(** * C55: the feed-forward layers *)
From Coq Require Import Reals List Arith Bool ZArith Lia Lra.
From Verif Require Import DenseModel DenseSpec GradModel GradSpec GradLemmas GradProofs10 OpsModel OpsSpec OpsProofs3 OpsProofs4 AttModel AttSpec AttProofs ActModel ActSpec ActProofs PoolModel LayerModel LayerSpec LayerProofs.
Import ListNotations.
Open Scope nat_scope.

(** ** C55: each layer computes its formula *)

Theorem C55_linear : forall wide n d m xs, linear_fits m n d -> List.Forall (is_vec d) xs -> linear_forward wide m xs = Some (map (layer n m) xs).
Proof. exact layers_value. Qed.
Print Assumptions C55_linear.

(** Highway: each entry is t h + (1 - t) x with 0 < t < 1, so it lies between the entry of the layer's output and that of the input. *)
Theorem C55_highway : forall wide n f m xs, linear_fits (hw_in m) n n -> linear_fits (hw_t m) n n -> plain (hw_act m) f -> List.Forall (is_vec n) xs ->
  highway_forward wide m xs = Some (map (highway_output n f m) xs) /\
  forall x k, In x xs -> k < n ->
    (0 < through n m x k < 1)%R /\
    let h := f (entry (layer n (hw_in m) x) k) in
    (Rmin h (entry x k) <= entry (highway_output n f m x) k <= Rmax h (entry x k))%R.
Proof.
  intros wide n f m xs F1 F2 Fa Hx. split.
  - apply each_map. intros x Hi. apply highway_value; auto. now apply (Forall_in _ xs).
  - intros x k Hi Hk. assert (T : (0 < through n m x k < 1)%R).
    { unfold through. pose proof (exp_pos (- entry (layer n (hw_t m) x) k)) as P. split; [apply Rdiv_lt_0_compat; lra|].
      apply (Rmult_lt_reg_r (1 + exp (- entry (layer n (hw_t m) x) k))); [lra|]. unfold Rdiv. rewrite Rmult_1_l, Rinv_l by lra. lra. }
    split; [exact T|]. cbv zeta. unfold highway_output. rewrite entry_vec by auto.
    set (t := through n m x k) in *. set (h := f _). set (v := entry x k). clearbody t h v. unfold Rmin, Rmax. destruct (Rle_dec h v); nra.
Qed.
Print Assumptions C55_highway.
(** An activation that takes parameters makes every call panic: the layer has no place for them. *)
Theorem C55_highway_params_refuted : forall wide k m xs, In k entrywise -> 0 < arity k -> hw_act m = number k -> xs <> [] -> highway_forward wide m xs = None.
Proof.
  intros wide k m xs Hk Ha Hn Hne. destruct xs as [|x xs]; [congruence|]. unfold highway_forward. apply (each_none _ _ x); [now left|]. now apply (highway_missing wide k).
Qed.
Print Assumptions C55_highway_params_refuted.

(** SqrDist: the squared Euclidean norm of B x, zero exactly when B x is. *)
Theorem C55_sqrdist : forall wide n d b xs, fits b n d -> List.Forall (is_vec d) xs ->
  exists q : mat -> R, sqrdist_forward wide b xs = Some (map (fun x => scalar (q x)) xs) /\
  forall x, q x = Rsum n (fun i => Rsum d (fun j => rget b i j * entry x j) ^ 2)%R /\ (0 <= q x)%R /\
    (q x = 0%R <-> forall i, i < n -> Rsum d (fun j => rget b i j * entry x j)%R = 0%R).
Proof.
  intros wide n d b xs Fb Hx. exists (fun x => Rsum n (fun i => Rsum d (fun j => rget b i j * entry x j) ^ 2)%R). split; [now apply sqrdist_value|].
  intros x. split; [reflexivity|]. set (g := fun i => Rsum d (fun j => rget b i j * entry x j)%R). change ((0 <= Rsum n (fun i => g i ^ 2))%R /\ (Rsum n (fun i => g i ^ 2)%R = 0%R <-> forall i, i < n -> g i = 0%R)).
  clearbody g. clear. induction n as [|n [IH1 IH2]]; [split; [cbn; lra|split; [lia|reflexivity]]|]. rewrite Rsum_r. pose proof (pow2_ge_0 (g n)) as P. split; [lra|]. split.
  - intros H i Hi. destruct (Nat.eq_dec i n) as [->|Hn]; [|apply IH2; [lra|lia]]. assert (Z : (g n ^ 2 = 0)%R) by lra. destruct (Req_dec (g n) 0) as [?|N]; auto. pose proof (pow_nonzero (g n) 2 N). lra.
  - intros H. rewrite (proj2 IH2) by (intros; apply H; lia). rewrite H by lia. cbn. lra.
Qed.
Print Assumptions C55_sqrdist.

(** Flatten: one column with the elements of all inputs in order; without inputs it panics. *)
Theorem C55_flatten : forall xs, List.Forall (fun x => wf x) xs ->
  flatten_forward xs = match xs with [] => None | _ => Some [column (concat (map data xs))] end.
Proof. intros xs Hx. destruct xs as [|x xs]; [reflexivity|]. now apply flatten_value. Qed.
Print Assumptions C55_flatten.

(** The spatial gating unit, on as many inputs as its projection has channels; without inputs it panics. *)
Theorem C55_sgu : forall wide n l e f m xs, 0 < n -> 0 < l -> sgu_fits m n l e f -> length xs = l -> List.Forall (is_vec (2 * n)) xs ->
  sgu_forward wide m xs = Some (map (sgu_output n e f m xs) (seq 0 l)) /\ sgu_forward wide m [] = None.
Proof. intros wide n l e f m xs Hn Hl Fm Hx Hv. split; [|reflexivity]. apply sgu_value; auto. destruct xs; [cbn in Hx; lia|discriminate]. Qed.
Print Assumptions C55_sgu.

(** gMLP: its layers, one after the other, on the inputs filled up with zeros; a sequence that is too long panics. *)
Theorem C55_gmlp : forall wide m d n l e1 e2 f xs, 0 < n -> gm_dim m = d -> gm_seq m = l -> List.Forall (fun b => gblock_fits b d n l e1 e2 f) (gm_layers m) ->
  List.Forall (is_vec d) xs ->
  gmlp_forward wide m xs =
    if l <? length xs then None else
    match xs with [] => Some [] | _ => Some (fold_left (fun ys b => gblock_output d n e1 e2 f b ys) (gm_layers m) (filled d l xs)) end.
Proof.
  intros wide m d n l e1 e2 f xs Hn Hd Hs Hm Hx. destruct (Nat.ltb_spec l (length xs)) as [H|H].
  - unfold gmlp_forward. rewrite Hs, (proj2 (Nat.ltb_lt _ _) H). reflexivity.
  - destruct xs as [|x xs]; [unfold gmlp_forward; cbn [length]; now rewrite (proj2 (Nat.ltb_ge (gm_seq m) 0) (Nat.le_0_l _))|]. apply gmlp_value; auto. discriminate.
Qed.
Print Assumptions C55_gmlp.
(** One output for each input: not for a sequence shorter than SeqLen, which gets the outputs of the padding too. *)
Theorem C55_gmlp_length_refuted : forall wide m d n l e1 e2 f xs, 0 < n -> gm_dim m = d -> gm_seq m = l -> List.Forall (fun b => gblock_fits b d n l e1 e2 f) (gm_layers m) ->
  List.Forall (is_vec d) xs -> 0 < length xs < l ->
  exists ys, gmlp_forward wide m xs = Some ys /\ length ys = l /\ length ys <> length xs.
Proof.
  intros wide m d n l e1 e2 f xs Hn Hd Hs Hm Hx Hl. eexists. split; [apply (gmlp_value wide m d n l e1 e2 f); auto; [destruct xs; [cbn in Hl; lia|discriminate]|lia]|].
  assert (G : forall ms ys, length (fold_left (fun ys b => gblock_output d n e1 e2 f b ys) ms ys) = length ys).
  { induction ms as [|b ms IH]; intros ys; [reflexivity|]. cbn [fold_left]. rewrite IH. unfold gblock_output. now rewrite map_length, seq_length. }
  rewrite G, filled_length by lia. lia.
Qed.
Print Assumptions C55_gmlp_length_refuted.
(** An odd feed-forward size (Dim * FFMult): the gate has one element more than the normalization, and every call with inputs panics. *)
Theorem C55_gmlp_odd_refuted : forall wide m b bs h e1 e2 xs, gm_layers m = b :: bs -> norm_fits (gb_norm b) (gm_dim m) e1 ->
  linear_fits (gb_in b) (2 * h + 1) (gm_dim m) -> norm_fits (sgu_norm (gb_sgu b)) h e2 -> xs <> [] -> List.Forall (is_vec (gm_dim m)) xs ->
  gmlp_forward wide m xs = None.
Proof. exact gmlp_odd. Qed.
Print Assumptions C55_gmlp_odd_refuted.

(** The mixer block on exactly Channels inputs. *)
Theorem C55_mixer_partial : forall wide d l h1 h2 e1 e2 f1 f2 m xs, 0 < d -> 0 < l -> mixer_fits m d l h1 h2 e1 e2 f1 f2 -> length xs = l -> List.Forall (is_vec d) xs ->
  mixer_forward wide m xs = Some (map (mixer_output d h1 h2 e1 e2 f1 f2 m xs) (seq 0 l)).
Proof. exact mixer_value. Qed.
Print Assumptions C55_mixer_partial.
(** "maximum sequence length": a shorter sequence panics too. *)
Theorem C55_mixer_refuted : forall wide d l h1 h2 e1 e2 f1 f2 m xs, 0 < d -> 0 < length xs < l -> mixer_fits m d l h1 h2 e1 e2 f1 f2 -> List.Forall (is_vec d) xs ->
  mixer_forward wide m xs = None.
Proof. exact mixer_short. Qed.
Print Assumptions C55_mixer_refuted.
(** More than Channels inputs panic. *)
Theorem C55_mixer_long : forall wide m xs, mx_channels m < length xs -> mixer_forward wide m xs = None.
Proof. intros wide m xs H. unfold mixer_forward. now rewrite (proj2 (Nat.ltb_lt _ _) H). Qed.
Print Assumptions C55_mixer_long.

(** The max-pooling layer pools each input by itself (C17_max_pooling_partial says what that gives). *)
Theorem C55_pooling : forall pr pc xs ys, pooling_forward pr pc xs = Some ys <-> Forall2 (fun x y => fwd (max_pooling_fn pr pc) [x] = Some y) xs ys.
Proof.
  intros pr pc. unfold pooling_forward. induction xs as [|x xs IH]; intros ys; cbn [each].
  - split; [intros [= <-]; constructor|inversion 1; reflexivity].
  - destruct (fwd (max_pooling_fn pr pc) [x]) as [y|] eqn:E; cbn [bind]; [|split; [discriminate|inversion 1; congruence]].
    destruct (each _ xs) as [zs|]; cbn [bind].
    + split; [intros [= <-]; constructor; [auto|now apply IH]|]. inversion 1; subst. rewrite E in *. match goal with H : Some _ = Some _ |- _ => injection H as -> end.
      match goal with H : Forall2 _ _ _ |- _ => apply IH in H; injection H as -> end. reflexivity.
    + split; [discriminate|]. inversion 1; subst. match goal with H : Forall2 _ _ _ |- _ => apply IH in H; discriminate end.
Qed.
Print Assumptions C55_pooling.

(** ** Cases *)
Definition w22 : mat := mkDense 2 2 [1%R; 2%R; 3%R; 4%R].
Definition v2 (a b : R) : mat := mkDense 2 1 [a; b].
Definition ones2 : mat := v2 1 1.
Definition lin22 : linear := mkLinear w22 ones2.
Definition norm2 : lnorm := mkLnorm ones2 ones2 (scalar 1%R).
Lemma tanh_plain : plain Tanh tanh.
Proof. exists (nth 2 entrywise (mkAct 0 Coq.Strings.String.EmptyString 0 (fun _ v => v))). split; [apply nth_In; cbn; lia|]. repeat split. Qed.
Example C55_highway_case : linear_fits (hw_in (mkHighway lin22 lin22 Tanh)) 2 2 /\ plain (hw_act (mkHighway lin22 lin22 Tanh)) tanh /\
  In (nth 8 entrywise (mkAct 0 Coq.Strings.String.EmptyString 0 (fun _ v => v))) entrywise /\ 0 < arity (nth 8 entrywise (mkAct 0 Coq.Strings.String.EmptyString 0 (fun _ v => v))).
Proof. repeat split; auto using tanh_plain; apply nth_In; cbn; lia. Qed.
Example C55_flatten_case : flatten_forward [w22; v2 5 6] = Some [mkDense 6 1 [1%R; 2%R; 3%R; 4%R; 5%R; 6%R]].
Proof. rewrite C55_flatten; [reflexivity|repeat constructor]. Qed.
Example C55_sqrdist_case : sqrdist_forward true w22 [v2 1 (-1)] = Some [scalar 2%R].
Proof.
  rewrite (sqrdist_value true 2 2); [|repeat split|repeat constructor]. cbn [map]. do 3 f_equal. unfold rget, ArithSpec.get, elem. cbn. lra.
Qed.
Definition sgu22 : sgu := mkSgu norm2 w22 ones2 2 Tanh.
Example C55_sgu_case : sgu_fits sgu22 2 2 1 tanh /\ List.Forall (is_vec (2 * 2)) [mkDense 4 1 [1%R; 2%R; 3%R; 4%R]; mkDense 4 1 [5%R; 6%R; 7%R; 8%R]].
Proof. repeat split; auto using tanh_plain; repeat constructor. Qed.
Definition w42 : mat := mkDense 4 2 [1%R; 2%R; 3%R; 4%R; 5%R; 6%R; 7%R; 8%R].
Definition gblock2 : gblock := mkGblock norm2 (mkLinear w42 (mkDense 4 1 [1%R; 1%R; 1%R; 1%R])) sgu22 lin22.
Example C55_gmlp_case : exists ys, gmlp_forward true (mkGmlp 2 2 [gblock2; gblock2]) [v2 1 2] = Some ys /\ length ys = 2 /\ length ys <> length [v2 1 2].
Proof.
  apply (C55_gmlp_length_refuted true _ 2 2 2 1 1 tanh); auto; [|repeat constructor].
  - repeat constructor; auto using tanh_plain.
Qed.
Definition norm1 : lnorm := mkLnorm (scalar 1%R) (scalar 0%R) (scalar 1%R).
(** Dim 3 and FFMult 1: the halves of 3 *)
Definition odd_block : gblock := mkGblock (mkLnorm (mkDense 3 1 [1%R; 1%R; 1%R]) (mkDense 3 1 [0%R; 0%R; 0%R]) (scalar 1%R))
  (mkLinear (mkDense 3 3 [1%R; 2%R; 3%R; 4%R; 5%R; 6%R; 7%R; 8%R; 9%R]) (mkDense 3 1 [0%R; 0%R; 0%R])) (mkSgu norm1 w22 ones2 2 Tanh) (mkLinear (mkDense 3 1 [1%R; 2%R; 3%R]) (mkDense 3 1 [0%R; 0%R; 0%R])).
Example C55_gmlp_odd_case : gmlp_forward true (mkGmlp 3 2 [odd_block]) [mkDense 3 1 [1%R; 2%R; 3%R]] = None.
Proof. apply (C55_gmlp_odd_refuted true _ odd_block [] 1 1 1); auto; try (repeat constructor); discriminate. Qed.
Definition ff2 : feedforward := mkFf lin22 Tanh lin22.
Definition mixer2 : mixer := mkMixer 2 norm2 ff2 norm2 ff2.
Example C55_mixer_case : mixer_fits mixer2 2 2 2 2 1 1 tanh tanh /\ mixer_forward true mixer2 [v2 1 2] = None.
Proof.
  assert (F : mixer_fits mixer2 2 2 2 2 1 1 tanh tanh) by (repeat split; auto using tanh_plain). split; [exact F|].
  apply (C55_mixer_refuted true 2 2 2 2 1 1 tanh tanh); auto; try (cbn; lia); repeat constructor.
Qed.
