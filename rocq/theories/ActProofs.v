(** * Names and functions of the activations *)
From Coq Require Import String Ascii Reals List Arith Bool ZArith Lia Lra Permutation.
From Verif Require Import DenseModel DenseSpec ArithModel GradModel GradSpec GradLemmas GradProofs GradProofs4 GradProofs6 GradProofs9 OpsModel OpsSpec OpsLemmas OpsProofs OpsProofs4 SparseModel ActModel ActSpec.
Import ListNotations.

(** ** The map of names *)
Definition writes (order : list (activation * string)) : smap := flat_map (fun '(k, v) => [(v, k); (to_lower v, k)]) order.
Lemma map_writes order : str_to_activation_map order = rev (writes order).
Proof.
  unfold str_to_activation_map. rewrite <- (app_nil_r (rev (writes order))). generalize (@nil (string * activation)) as m.
  induction order as [|[k v] order IH]; intros m; [reflexivity|]. cbn [fold_left]. rewrite IH. unfold writes at 2. cbn [flat_map app]. fold (writes order). cbn [rev]. rewrite <- !app_assoc. reflexivity.
Qed.
Lemma get_in m k v : smap_get m k = Some v -> In (k, v) m.
Proof. induction m as [|[k' v'] m IH]; [discriminate|]. cbn. destruct (String.eqb_spec k' k) as [->|]; [intros [= ->]; auto|auto]. Qed.
Lemma get_some m k v : In (k, v) m -> exists v', smap_get m k = Some v' /\ In (k, v') m.
Proof.
  induction m as [|[k' v'] m IH]; [intros []|]. cbn. intros [[= -> ->]|H].
  - rewrite String.eqb_refl. eauto.
  - destruct (String.eqb_spec k' k) as [->|]; [eauto|]. destruct (IH H) as (w & E & I). eauto.
Qed.
Definition functional (m : smap) : bool := forallb (fun '(k, v) => forallb (fun '(k', v') => negb (String.eqb k k') || Z.eqb v v') m) m.
Lemma functional_ok m k v v' : functional m = true -> In (k, v) m -> In (k, v') m -> v = v'.
Proof.
  intros F H H'. unfold functional in F. rewrite forallb_forall in F. specialize (F _ H). cbv beta iota in F. rewrite forallb_forall in F. specialize (F _ H'). cbv beta iota in F.
  rewrite String.eqb_refl in F. now apply Z.eqb_eq.
Qed.
Lemma table : activations_map = names.
Proof. reflexivity. Qed.
Lemma in_writes order k v : In (k, v) (writes order) <-> exists n, In (v, n) order /\ (k = n \/ k = to_lower n).
Proof.
  unfold writes. rewrite in_flat_map. split.
  - intros ((v', n) & H & I). cbn in I. destruct I as [[= <- <-]|[[= <- <-]|[]]]; eauto.
  - intros (n & H & [->| ->]); exists (v, n); cbn; auto.
Qed.
Lemma writes_functional : functional (writes activations_map) = true.
Proof. vm_compute. reflexivity. Qed.
Lemma get_spec order k v : Permutation order activations_map ->
  smap_get (str_to_activation_map order) k = Some v <-> exists n, In (v, n) names /\ (k = n \/ k = to_lower n).
Proof.
  intros P. rewrite map_writes.
  assert (Q : forall k v, In (k, v) (rev (writes order)) <-> In (k, v) (writes activations_map)).
  { intros k' v'. rewrite <- in_rev, !in_writes. split; intros (n & H & E); exists n; split; auto; [now apply (Permutation_in _ P)|now apply (Permutation_in _ (Permutation_sym P))]. }
  rewrite <- table, <- in_writes. split.
  - intros E. apply Q, get_in, E.
  - intros H. destruct (get_some (rev (writes order)) k v) as (w & E & I); [now apply Q|]. rewrite E. f_equal. apply (functional_ok _ k w v writes_functional); [now apply Q|assumption].
Qed.
Open Scope R_scope.

(** ** The functions *)
Lemma each_flat (f : mat -> option mat) (g : R -> R) xs : (forall x, wf x -> f x = Some (flat (rows x) (cols x) (fun k => g (entry x k)))) -> List.Forall (fun x => wf x) xs ->
  each f xs = Some (map (fun x => flat (rows x) (cols x) (fun k => g (entry x k))) xs).
Proof. intros H. induction 1 as [|x xs Hx HF IH]; [reflexivity|]. cbn. rewrite (H x Hx). cbn. now rewrite IH. Qed.
Lemma flat_by x f g : (forall v, f v = g v) -> flat (rows x) (cols x) (fun k => f (entry x k)) = flat (rows x) (cols x) (fun k => g (entry x k)).
Proof. intros H. apply flat_ext. intros. apply H. Qed.

Lemma f_unary h dh x : wf x -> fwd (unary_fn h dh) [x] = Some (flat (rows x) (cols x) (fun k => h (entry x k))).
Proof. intros W. rewrite (flat_of x W) at 1. apply v_unary. Qed.
Lemma f_unary1 h dh x s : wf x -> fwd (unary1_fn h dh) [x; scalar s] = Some (flat (rows x) (cols x) (fun k => h s (entry x k))).
Proof. intros W. rewrite (flat_of x W) at 1. apply v_unary1. Qed.
Lemma f_unary2 h dh x s s' : wf x -> fwd (unary2_fn h dh) [x; scalar s; scalar s'] = Some (flat (rows x) (cols x) (fun k => h s s' (entry x k))).
Proof.
  intros W. cbn [fwd unary2_fn item scalar bind]. unfold item. cbn. f_equal. apply (elems_flat _ _ _ _ _ (m_apply_elems _ x _ _ (fits_wf x W))). intros i j Hi Hj. now rewrite (rget_flat x (rows x) (cols x)) by (auto; now apply fits_wf).
Qed.
Lemma f_swish_b x s : wf x -> fwd swish_b_fn [x; scalar s] = Some (flat (rows x) (cols x) (fun k => swish_b s (entry x k))).
Proof.
  intros W. cbn [fwd swish_b_fn bin]. unfold item. cbn. f_equal. apply (elems_flat _ _ _ _ _ (m_apply_elems _ x _ _ (fits_wf x W))). intros i j Hi Hj. now rewrite (rget_flat x (rows x) (cols x)) by (auto; now apply fits_wf).
Qed.
Lemma f_sigmoid x : wf x -> fwd sigmoid_fn [x] = Some (flat (rows x) (cols x) (fun k => logistic (entry x k))).
Proof.
  intros W. cbn [fwd sigmoid_fn un]. f_equal. apply (elems_flat _ _ _ _ _ (sigmoid_elems x _ _ (fits_wf x W))). intros i j Hi Hj. now rewrite (rget_flat x (rows x) (cols x)) by (auto; now apply fits_wf).
Qed.
Lemma f_swish x : wf x -> fwd swish_fn [x] = Some (flat (rows x) (cols x) (fun k => entry x k * logistic (entry x k))).
Proof.
  intros W. pose proof (f_sigmoid x W) as E. cbn [fwd sigmoid_fn un] in E. assert (E' : m_sigmoid x = flat (rows x) (cols x) (fun k => logistic (entry x k))) by congruence. clear E.
  cbn [fwd swish_fn un]. rewrite E'. replace (m_prod_in _ x) with (m_prod_in (flat (rows x) (cols x) (fun k => logistic (entry x k))) (flat (rows x) (cols x) (entry x))) by (f_equal; symmetry; apply (flat_of x W)).
  destruct (m_prod_in_elems (flat (rows x) (cols x) (fun k => logistic (entry x k))) (flat (rows x) (cols x) (entry x)) (rows x) (cols x)) as (m & -> & Em); try apply flat_fits.
  f_equal. apply (elems_flat _ _ _ _ _ Em). intros i j Hi Hj. cbv beta. rewrite !flat_rget' by auto. ring.
Qed.
Lemma f_positive_elu x : wf x -> positive_elu x = Some (flat (rows x) (cols x) (fun k => upto 0 exp (fun v => v + 1) (entry x k))).
Proof.
  intros W. destruct (positive_elu_value x W) as (y & E & (Wy & Sy & V)). rewrite E. f_equal. rewrite (flat_of' y x Wy Sy). apply flat_ext. intros k Hk. rewrite V by now rewrite size_wf. reflexivity.
Qed.

Ltac by_entry := let x := fresh "x" in let W := fresh "W" in intros x W;
  cbv beta; cbn [nth_error bind map];
  try unfold tan_fn, tanh_fn, hard_sigmoid_fn, hard_tanh_fn, softsign_fn, relu_fn, gelu_fn, mish_fn, celu_fn, elu_fn, leaky_relu_fn, soft_shrink_fn, selu_fn, soft_plus_fn, threshold_fn;
  first [rewrite f_sigmoid by exact W | rewrite f_swish by exact W | rewrite f_positive_elu by exact W | rewrite f_swish_b by exact W | rewrite f_unary by exact W | rewrite f_unary1 by exact W | rewrite f_unary2 by exact W];
  apply f_equal, flat_ext; let k := fresh "k" in intros k _; unfold p0, p1, upto, id, Rmax, Rmin, Rltb, Rleb; cbn [nth].
Ltac plain a := lazymatch a with context [Rle_dec _ _] => fail | context [Rlt_dec _ _] => fail | _ => idtac end.
Ltac cases := repeat match goal with
  | |- context [Rle_dec ?a ?b] => plain a; plain b; destruct (Rle_dec a b); cbn iota
  | |- context [Rlt_dec ?a ?b] => plain a; plain b; destruct (Rlt_dec a b); cbn iota end; try lra; try reflexivity.

Lemma entrywise_value wide a ps xs : In a entrywise -> (arity a <= length ps)%nat -> List.Forall (fun x => wf x) xs ->
  activation_forward wide (number a) (map scalar ps) xs = Some (map (fun x => flat (rows x) (cols x) (fun k => func a ps (entry x k))) xs).
Proof.
  intros Ha Hp Hxs. unfold activation_forward.
  cut (exists f, activation_func wide (number a) (map scalar ps) = Some f /\ forall x, wf x -> f x = Some (flat (rows x) (cols x) (fun k => func a ps (entry x k)))).
  { intros (f & E & H). rewrite E. cbn [bind]. apply each_flat; auto. }
  unfold entrywise in Ha. cbn [In] in Ha.
  repeat (destruct Ha as [<-|Ha]); [..|destruct Ha]; cbn [number name arity func] in *;
  repeat match goal with H : (S _ <= length ?l)%nat |- _ => destruct l; cbn [length] in H; [lia|apply le_S_n in H] end;
  (eexists; split; [reflexivity|]).
  - intros x W. cbv beta. f_equal. apply (flat_of x W).
  - by_entry; try reflexivity.
  - by_entry; try reflexivity.
  - by_entry; try reflexivity.
  - by_entry. unfold hard_sigmoid, Rltb. cases.
  - by_entry. unfold hard_tanh, Rltb. cases.
  - by_entry; try reflexivity.
  - by_entry; try reflexivity.
  - by_entry. unfold celu, Rleb. cases.
  - by_entry. unfold gelu. replace 0.044715 with (44715 / 1000000) by lra. lra.
  - by_entry. unfold elu, Rleb. cases.
  - by_entry; try reflexivity.
  - by_entry. unfold swish_b, logistic. do 5 f_equal. ring.
  - by_entry; try reflexivity.
  - by_entry; try reflexivity.
  - by_entry; try reflexivity.
  - by_entry. unfold leaky_relu, Rleb. cases.
  - by_entry. unfold selu, Rleb. cases.
  - by_entry. unfold soft_plus, Rleb. cases.
  - by_entry. unfold soft_shrink, Rltb. cases.
  - by_entry. unfold threshold_f, Rleb. cases.
Qed.
Lemma entrywise_missing wide a ps xs : In a entrywise -> (length ps < arity a)%nat -> xs <> [] -> activation_forward wide (number a) ps xs = None.
Proof.
  intros Ha Hp Hxs. destruct xs as [|x xs]; [congruence|]. unfold activation_forward. unfold entrywise in Ha. cbn [In] in Ha.
  repeat (destruct Ha as [<-|Ha]); [..|destruct Ha]; cbn [number name arity func] in *; try lia; destruct ps as [|q [|q' ps]]; cbn [length] in Hp; try lia; reflexivity.
Qed.
Lemma unknown wide a ps xs : ~ (0 <= a < 24)%Z -> activation_forward wide a ps xs = None.
Proof.
  intros H. unfold activation_forward, activation_func, activation_functions, Identity, Tan, Tanh, Sigmoid, HardSigmoid, HardTanh, Softsign, ReLU, CELU, GELU, ELU, PositiveELU, SwishB, Swish, SiLU, Mish, LeakyReLU, SELU, SoftPlus, SoftShrink, Threshold, Softmax, LogSoftmax, SparseMax.
  repeat match goal with |- context [(a =? ?n)%Z] => destruct (Z.eqb_spec a n); [lia|] end. reflexivity.
Qed.
Lemma names_all a : (0 <= a < 24)%Z <-> exists n, In (a, n) names.
Proof.
  split.
  - intros H. assert (X : In a (map fst names)).
    { assert (Y : map fst names = map Z.of_nat (seq 0 24)) by reflexivity. rewrite Y. apply in_map_iff. exists (Z.to_nat a). rewrite in_seq. lia. }
    apply in_map_iff in X as ((a', n) & <- & I). eauto.
  - intros (n & I). unfold names in I. cbn in I. repeat (destruct I as [[= <- <-]|I]; [lia|]). destruct I.
Qed.
