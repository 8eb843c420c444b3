(** * Properties of the activations *)
From Coq Require Import String Ascii Reals List Arith Bool ZArith Lia Lra Permutation.
From Verif Require Import DenseModel DenseSpec ArithModel GradModel GradSpec GradLemmas GradProofs OpsModel OpsSpec OpsLemmas OpsProofs SparseModel SparseSpec PropsSparse ActModel ActSpec ActProofs.
Import ListNotations.
Open Scope R_scope.

(** ** C46 *)
(** In whatever order the map of names is visited: a string is accepted exactly if it is one of the 24 names
    or the lower-case form of one, and then it stands for that activation. *)
Theorem C46_parse : forall order, Permutation order activations_map -> forall str a,
  parse_activation order str = (a, false) <-> exists n, In (a, n) names /\ (str = n \/ str = to_lower n).
Proof.
  intros order P str a. unfold parse_activation. pose proof (get_spec order str) as G. destruct (smap_get _ str) as [v|].
  - split; [intros [= ->]; now apply G|]. intros H. apply G in H; auto. congruence.
  - split; [discriminate|]. intros H. apply (G a P) in H. discriminate.
Qed.
Print Assumptions C46_parse.
(** Anything else is an error with the value -1, and MustParseActivation panics. *)
Theorem C46_reject : forall order, Permutation order activations_map -> forall str,
  (forall a n, In (a, n) names -> str <> n /\ str <> to_lower n) -> parse_activation order str = ((-1)%Z, true) /\ must_parse_activation order str = None.
Proof.
  intros order P str H. unfold must_parse_activation. destruct (parse_activation order str) as (a, e) eqn:E. destruct e.
  - unfold parse_activation in E. destruct (smap_get _ str); [discriminate|]. injection E as <-. split; reflexivity.
  - apply C46_parse in E; auto. destruct E as (n & I & [-> | ->]); destruct (H a n I); congruence.
Qed.
Print Assumptions C46_reject.
(** Every activation has a name, and it leads back to it. *)
Theorem C46_round_trip : forall order, Permutation order activations_map -> forall a, (0 <= a < 24)%Z ->
  exists n, In (a, n) names /\ must_parse_activation order n = Some a /\ must_parse_activation order (to_lower n) = Some a.
Proof.
  intros order P a H. apply names_all in H as (n & I). exists n. split; [exact I|]. unfold must_parse_activation.
  rewrite (proj2 (C46_parse order P n a)) by eauto. rewrite (proj2 (C46_parse order P (to_lower n) a)) by eauto. auto.
Qed.
Print Assumptions C46_round_trip.
(** Each activation that works entry by entry, with enough one-element parameters, gives for every input a
    matrix of its shape with the function of that name applied to every entry. *)
Theorem C46_entrywise : forall wide a ps xs, In a entrywise -> (arity a <= length ps)%nat -> List.Forall (fun x => wf x) xs ->
  exists ys, activation_forward wide (number a) (map scalar ps) xs = Some ys /\
    Forall2 (fun y x => entries y x (fun k => func a ps (entry x k))) ys xs.
Proof.
  intros wide a ps xs Ha Hp Hx. eexists. split; [now apply entrywise_value|]. induction Hx as [|x xs W F IH]; constructor; auto. now apply flat_entries.
Qed.
Print Assumptions C46_entrywise.
(** A missing parameter panics at the first input. *)
Theorem C46_missing_params : forall wide a ps xs, In a entrywise -> (length ps < arity a)%nat -> xs <> [] -> activation_forward wide (number a) ps xs = None.
Proof. exact entrywise_missing. Qed.
Print Assumptions C46_missing_params.
(** A number that is no activation ends the process, even without inputs. *)
Theorem C46_unknown : forall wide a ps xs, ~ (0 <= a < 24)%Z -> activation_forward wide a ps xs = None.
Proof. exact unknown. Qed.
Print Assumptions C46_unknown.
(** Softmax and LogSoftmax of every non-empty vector: a column with the probabilities, or their logarithms. *)
Theorem C46_softmax : forall wide ps x, vector x ->
  (exists y, activation_forward wide 21%Z ps [x] = Some [y] /\ rows y = size x /\ cols y = 1%nat /\ forall k, (k < size x)%nat -> entry y k = exp (entry x k) / total exp x) /\
  (exists y, activation_forward wide 22%Z ps [x] = Some [y] /\ rows y = size x /\ cols y = 1%nat /\ forall k, (k < size x)%nat -> entry y k = entry x k - ln (total exp x)).
Proof.
  intros wide ps x V. destruct (log_softmax_value wide x V) as (s & l & Es & El & Wl & Rl & Cl & H).
  pose proof (flat_vector x V) as Hv. destruct V as (Hw & _ & Hn). destruct (GradProofs10.softmax_facts x Hw Hv Hn) as (s' & Es' & R & C & P & _).
  split.
  - exists s'. split; [|split; [exact R|split; [exact C|]]].
    + unfold activation_forward. cbn [activation_func activation_functions Z.eqb Pos.eqb Identity Tan Tanh Sigmoid HardSigmoid HardTanh Softsign ReLU GELU PositiveELU Swish SiLU Mish Softmax bind each fwd softmax_fn un].
      change (activation_forward wide 21%Z ps [x] = Some [s']). unfold activation_forward. cbn. rewrite Es'. reflexivity.
    + exact P.
  - exists l. split; [|split; [exact Rl|split; [exact Cl|]]].
    + unfold activation_forward. cbn [activation_func activation_functions Z.eqb Pos.eqb bind each]. change ((do y <- log_softmax wide x; do ys <- Some []; Some (y :: ys)) = Some [l]). rewrite El. reflexivity.
    + intros k Hk. now apply H.
Qed.
Print Assumptions C46_softmax.
(** SparseMax runs exactly on the inputs with an entry that is not negative: the claim that every activation
    can be run fails for it (see C15). *)
Theorem C46_sparse_max_partial : forall wide ps x, wf x -> (0 < size x)%nat ->
  activation_forward wide 23%Z ps [x] <> None <-> exists k, (k < size x)%nat /\ 0 <= entry x k.
Proof.
  intros wide ps x W Hn. destruct (C15_value x W Hn) as (p & mx & _ & (k & Hk & Ek) & M & N & Y).
  assert (E : activation_forward wide 23%Z ps [x] = option_map (fun y => [y]) (fwd sparse_max_fn [x])).
  { unfold activation_forward. change ((do y <- fwd sparse_max_fn [x]; do ys <- Some []; Some (y :: ys)) = option_map (fun y => [y]) (fwd sparse_max_fn [x])). now destruct (fwd sparse_max_fn [x]). }
  rewrite E. split.
  - intros H. exists k. split; [exact Hk|]. destruct (Rlt_le_dec (entry x k) 0); [|lra]. rewrite N in H by lra. now elim H.
  - intros (j & Hj & Pj). specialize (M j Hj). destruct (Y ltac:(lra)) as (y & -> & _). discriminate.
Qed.
Print Assumptions C46_sparse_max_partial.
Theorem C46_refuted : exists x, wf x /\ (0 < size x)%nat /\ is_vector x = true /\ forall wide ps, activation_forward wide 23%Z ps [x] = None.
Proof.
  exists (mkDense 1 1 [-1]). split; [reflexivity|]. split; [cbn; lia|]. split; [reflexivity|]. intros wide ps.
  destruct (activation_forward wide 23%Z ps [mkDense 1 1 [-1]]) eqn:E; [|reflexivity]. exfalso.
  destruct (proj1 (C46_sparse_max_partial wide ps (mkDense 1 1 [-1]) eq_refl ltac:(cbn; lia))) as (k & Hk & P); [rewrite E; discriminate|].
  cbn in Hk. assert (k = 0%nat) as -> by lia. cbn in P. lra.
Qed.
Print Assumptions C46_refuted.
Example C46_case : parse_activation activations_map "leakyrelu"%string = (16%Z, false) /\ parse_activation (rev activations_map) "ReLU"%string = (7%Z, false) /\ parse_activation activations_map "RELU"%string = ((-1)%Z, true).
Proof. repeat split; vm_compute; reflexivity. Qed.
Example C46_run_case : exists a, In a entrywise /\ name a = "LeakyReLU"%string /\ (arity a <= length [2])%nat /\
  exists y, activation_forward false (number a) (map scalar [2]) [mkDense 1 2 [3; -3]] = Some [y] /\ entry y 0 = 3 /\ entry y 1 = -6.
Proof.
  exists (nth 16 entrywise (mkAct 0 "" 0 (fun _ v => v))). split; [apply nth_In; cbn; lia|]. split; [reflexivity|]. split; [cbn; lia|].
  destruct (C46_entrywise false (nth 16 entrywise (mkAct 0 "" 0 (fun _ v => v))) [2] [mkDense 1 2 [3; -3]]) as (ys & E & F); [apply nth_In; cbn; lia|cbn; lia|repeat constructor|].
  inversion F as [|y x l l' (_ & _ & V) F' E1 E2]; subst. inversion F'; subst. exists y. split; [exact E|]. rewrite !V by (cbn; lia). cbn. unfold upto, p0, id. cbn.
  destruct (Rle_dec 3 0), (Rle_dec (-3) 0); lra.
Qed.
