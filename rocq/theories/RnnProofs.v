(** * Proofs about the recurrent networks *)
From Coq Require Import Reals List Arith Bool ZArith Lia Lra.
From Verif Require Import DenseModel DenseSpec DenseLemmas ArithModel GradModel GradSpec GradLemmas GradProofs2 GradProofs4 GradProofs6 GradProofs8 OpsModel OpsSpec OpsLemmas OpsProofs4 AttSpec AttProofs RnnModel RnnSpec.
Import ListNotations.
Open Scope nat_scope.

Lemma c_add n f g : fwd add_fn [vec n f; vec n g] = Some (vec n (fun k => f k + g k)%R).
Proof. rewrite !vec_flat. apply v_add. Qed.
Lemma c_prod n f g : fwd prod_fn [vec n f; vec n g] = Some (vec n (fun k => f k * g k)%R).
Proof. rewrite !vec_flat. apply v_prod. Qed.
Lemma c_rsub n f s : fwd reverse_sub_fn [vec n f; scalar s] = Some (vec n (fun k => s - f k)%R).
Proof. rewrite !vec_flat. apply v_rsub. Qed.
Lemma c_prods n f s : fwd prod_scalar_fn [vec n f; scalar s] = Some (vec n (fun k => f k * s)%R).
Proof. rewrite !vec_flat. apply v_prods. Qed.
Lemma c_tanh n f : fwd tanh_fn [vec n f] = Some (vec n (fun k => tanh (f k))).
Proof. rewrite !vec_flat. apply v_unary. Qed.
Lemma c_sigmoid n f : fwd sigmoid_fn [vec n f] = Some (vec n (fun k => logistic (f k))).
Proof.
  rewrite !vec_flat. unfold sigmoid_fn, fwd, un. f_equal. apply (elems_flat _ _ _ _ _ (sigmoid_elems (flat n 1 f) n 1 (flat_fits n 1 f))). intros i j Hi Hj. cbv beta. rewrite flat_rget' by auto. reflexivity.
Qed.
Ltac csteps := repeat (first [rewrite c_add | rewrite c_prod | rewrite c_rsub | rewrite c_prods | rewrite c_tanh | rewrite c_sigmoid]; cbn [bind]).

Section P.
Variable wide : bool.
Lemma gate_value g n d x y : gate_fits g n d -> is_vec d x -> (forall z, y = Some z -> is_vec n z) -> gate_affine wide g x y = Some (vec n (pre g x y)).
Proof.
  intros (Fw & Fr & Fb) Fx Fy. unfold gate_affine.
  assert (M : matched n 1 (g_w g :: x :: match y with Some y => [g_rec g; y] | None => [] end)).
  { destruct Fw as (? & ? & ?), Fx as (? & ? & ?), Fr as (? & ? & ?). destruct y as [y|]; cbn; [destruct (Fy y eq_refl) as (? & ? & ?)|]; repeat split; auto; congruence. }
  match type of M with matched _ _ ?l => destruct (affine_forward wide (g_b g) l n 1 ltac:(discriminate) Fb M) as (z & E & Ez) end. rewrite E. f_equal. rewrite (elems_vec _ _ _ Ez). apply vec_ext. intros k Hk. unfold pre. rewrite (rget_vec n) by auto.
  cbn [psum]. assert (X : forall (w : mat) (v : mat) p, fits w n p -> is_vec p v -> Rsum (cols w) (fun j => rget w k j * rget v j 0)%R = Rsum (rows v) (fun j => rget w k j * entry v j)%R).
  { intros w v p (_ & _ & Cw) Fv. pose proof Fv as (_ & Rv & _). rewrite Cw, Rv. apply Rsum_ext. intros j Hj. f_equal. now apply (rget_vec p). }
  rewrite (X _ _ d) by auto. rewrite Rplus_assoc. f_equal. f_equal. destruct y as [y|]; [|reflexivity]. cbn [psum]. rewrite (X _ _ n) by auto. ring.
Qed.

(** ** One step *)
Lemma srn_next_value m n d s x : gate_fits m n d -> is_vec d x -> (forall y, s = Some y -> is_vec n y) -> srn_next wide m s x = Some (srn_step n m s x).
Proof. intros Fm Fx Fs. unfold srn_next. rewrite (gate_value m n d) by auto. cbn [bind]. now rewrite c_tanh. Qed.
Lemma gru_next_value m n d s x : gru_fits m n d -> is_vec d x -> (forall y, s = Some y -> is_vec n (gs_y y)) ->
  exists s', gru_next wide m s x = Some s' /\ gs_y s' = gru_step n m (option_map gs_y s) x.
Proof.
  intros (Fp & Fr & Fc) Fx Fs. assert (Fy : forall z, option_map gs_y s = Some z -> is_vec n z). { destruct s; cbn; [|discriminate]. intros z [= <-]. now apply Fs. }
  unfold gru_next. rewrite (gate_value (gru_res m) n d) by auto. cbn [bind]. rewrite c_sigmoid. cbn [bind]. rewrite (gate_value (gru_part m) n d) by auto. cbn [bind]. rewrite c_sigmoid. cbn [bind].
  destruct s as [s|]; cbn [option_map try_prod] in *.
  - assert (Es : gs_y s = vec n (entry (gs_y s))) by (apply is_vec_self, Fy; reflexivity). remember (entry (gs_y s)) as f eqn:Ef. rewrite Es. rewrite c_prod. cbn [bind].
    rewrite (gate_value (gru_cand m) n d); [|auto|auto|intros z [= <-]; apply vec_fits]. cbn [bind]. csteps. eexists. split; [reflexivity|]. cbn [gs_y]. unfold gru_step. cbn [option_map old].
    apply vec_ext. intros k Hk. f_equal; [f_equal; f_equal|]. { rewrite <- Es. f_equal. f_equal. apply vec_ext. intros j Hj. rewrite <- Ef. reflexivity. }
    rewrite (entry_vec n f) by auto. reflexivity.
  - cbn [bind]. rewrite (gate_value (gru_cand m) n d) by auto. cbn [bind]. csteps. eexists. split; [reflexivity|]. cbn [gs_y]. unfold gru_step. apply vec_ext. intros k Hk. cbn [old option_map]. ring.
Qed.
Definition lstm_abs (s : lstm_state) : mat * mat := (st_cell s, st_y s).
Lemma lstm_next_value m n d s x : lstm_fits m n d -> is_vec d x -> (forall y, s = Some y -> is_vec n (st_cell y) /\ is_vec n (st_y y)) ->
  exists s', lstm_next wide m s x = Some s' /\ lstm_abs s' = lstm_step n m (option_map lstm_abs s) x.
Proof.
  intros (Fi & Fo & Ff & Fc & Fr) Fx Fs. assert (Fy : forall z, option_map st_y s = Some z -> is_vec n z). { destruct s; cbn; [|discriminate]. intros z [= <-]. now apply Fs. }
  unfold lstm_next. rewrite (gate_value (ls_in m) n d) by auto. cbn [bind]. rewrite c_sigmoid. cbn [bind]. rewrite (gate_value (ls_out m) n d) by auto. cbn [bind]. rewrite c_sigmoid. cbn [bind].
  rewrite (gate_value (ls_for m) n d) by auto. cbn [bind]. rewrite c_sigmoid. cbn [bind]. rewrite (gate_value (ls_cand m) n d) by auto. cbn [bind]. rewrite c_tanh. cbn [bind].
  set (refine := fun (v : R) (k : nat) => if ls_refined m then (v * entry x k)%R else v).
  assert (X : forall f, (if ls_refined m then fwd prod_fn [vec n f; x] else Some (vec n f)) = Some (vec n (fun k => refine (f k) k))).
  { intros f. unfold refine. destruct (ls_refined m); [|reflexivity]. rewrite (Fr eq_refl). pose proof (is_vec_self d x Fx) as Ex. rewrite Ex at 1. rewrite c_prod. reflexivity. }
  rewrite X. cbn [bind]. rewrite X. cbn [bind]. assert (Ey : option_map st_y s = option_map snd (option_map lstm_abs s)) by (destruct s; reflexivity). rewrite Ey.
  destruct s as [s|]; cbn [option_map lstm_abs snd] in *.
  - rewrite c_prod. cbn [bind]. assert (Es : st_cell s = vec n (entry (st_cell s))) by (apply is_vec_self; now apply (Fs s)). assert (Z : forall f, fwd prod_fn [vec n f; st_cell s] = Some (vec n (fun k => f k * entry (st_cell s) k)%R)) by (intros f; rewrite Es at 1; apply c_prod). rewrite Z. cbn [bind]. csteps. eexists. split; [reflexivity|].
    unfold lstm_abs at 1. cbn [st_cell st_y]. unfold lstm_step. cbn [option_map snd lstm_abs]. reflexivity.
  - rewrite c_prod. cbn [bind]. csteps. eexists. split; [reflexivity|]. unfold lstm_abs. cbn [st_cell st_y]. unfold lstm_step. cbn [option_map snd]. f_equal; apply vec_ext; intros k Hk; fold (refine (logistic (pre (ls_in m) x None k)) k) (refine (logistic (pre (ls_out m) x None k)) k); rewrite Rplus_0_r; reflexivity.
Qed.

(** ** The loop *)
Lemma run_value {S U} (next : option S -> mat -> option S) (step : option U -> mat -> U) (abs : S -> U) (inv : U -> Prop) d :
  (forall s x, is_vec d x -> (forall y, s = Some y -> inv (abs y)) -> exists s', next s x = Some s' /\ abs s' = step (option_map abs s) x /\ inv (abs s')) ->
  forall xs s, List.Forall (is_vec d) xs -> (forall y, s = Some y -> inv (abs y)) ->
  exists ss, run next s xs = Some ss /\ length ss = length xs /\
    forall i, i < length xs -> option_map abs (nth_error ss i) = fold_left (fun s x => Some (step s x)) (firstn (Datatypes.S i) xs) (option_map abs s).
Proof.
  intros H. induction xs as [|x xs IH]; intros s F I; cbn [run].
  - exists []. split; [reflexivity|]. split; [reflexivity|]. intros i Hi. cbn in Hi. lia.
  - inversion F; subst. destruct (H s x) as (s' & -> & E & I'); auto. cbn [bind]. destruct (IH (Some s')) as (ss & -> & L & P); [auto|intros y [= <-]; auto|]. cbn [bind]. exists (s' :: ss). split; [reflexivity|]. split; [cbn; lia|].
    intros [|i] Hi; cbn [nth_error firstn fold_left option_map]; [now rewrite E|]. rewrite P by (cbn in Hi; lia). cbn [option_map]. now rewrite E.
Qed.
Lemma causal_intro {S U} (next : option S -> mat -> option S) (step : option U -> mat -> U) (abs : S -> U) (inv : U -> Prop) (out : U -> mat) d :
  (forall s x, is_vec d x -> (forall y, s = Some y -> inv (abs y)) -> exists s', next s x = Some s' /\ abs s' = step (option_map abs s) x /\ inv (abs s')) ->
  causal_by d (fun xs => do ss <- run next None xs; Some (map (fun s => out (abs s)) ss)) (fun xs => option_map out (after step xs)).
Proof.
  intros H xs F. destruct (run_value next step abs inv d H xs None F) as (ss & -> & L & P); [discriminate|]. cbn [bind]. eexists. split; [reflexivity|]. split; [now rewrite map_length|].
  intros i Hi. rewrite nth_error_map. change (fun s => out (abs s)) with (fun s => out (abs s)). pose proof (P i Hi) as Q. cbn [option_map] in Q. unfold after. cbn beta. rewrite <- Q. now destruct (nth_error ss i).
Qed.
Lemma srn_causal m n d : gate_fits m n d -> causal_by d (srn_forward wide m) (srn_output n m).
Proof.
  intros Fm xs F. destruct (causal_intro (srn_next wide m) (srn_step n m) (fun y => y) (is_vec n) (fun y => y) d) with (xs := xs) as (ys & E & L & P).
  - intros s x Fx Fs. exists (srn_step n m s x). split; [now apply (srn_next_value m n d)|]. split; [now destruct s|apply vec_fits].
  - exact F.
  - unfold srn_forward. destruct (run (srn_next wide m) None xs) as [ss|]; cbn [bind] in E; [|discriminate]. rewrite map_id in E. injection E as <-. exists ss. split; [reflexivity|]. split; auto. intros i Hi. rewrite P by auto. unfold srn_output. now destruct (after _ _).
Qed.
Lemma gru_causal m n d : gru_fits m n d -> causal_by d (gru_forward wide m) (gru_output n m).
Proof.
  intros Fm xs F. destruct (causal_intro (gru_next wide m) (gru_step n m) gs_y (is_vec n) (fun y => y) d) with (xs := xs) as (ys & E & L & P).
  - intros s x Fx Fs. destruct (gru_next_value m n d s x Fm Fx Fs) as (s' & E & Ey). exists s'. split; auto. split; auto. rewrite Ey. apply vec_fits.
  - exact F.
  - exists ys. split; [exact E|]. split; auto. intros i Hi. rewrite P by auto. unfold gru_output. now destruct (after _ _).
Qed.
Lemma lstm_causal m n d : lstm_fits m n d -> causal_by d (lstm_forward wide m) (lstm_output n m).
Proof.
  intros Fm xs F. destruct (causal_intro (lstm_next wide m) (lstm_step n m) lstm_abs (fun s => is_vec n (fst s) /\ is_vec n (snd s)) snd d) with (xs := xs) as (ys & E & L & P).
  - intros s x Fx Fs. destruct (lstm_next_value m n d s x Fm Fx) as (s' & E & Ey); [intros y ->; exact (Fs y eq_refl)|]. exists s'. split; auto. split; auto. rewrite Ey. split; apply vec_fits.
  - exact F.
  - exists ys. split; [exact E|]. split; auto.
Qed.
End P.

(** ** Cutting a sequence *)
Lemma run_app {S} (next : option S -> mat -> option S) xs ys : forall s,
  run next s (xs ++ ys) = (do ss <- run next s xs; do ts <- run next (match rev ss with [] => s | t :: _ => Some t end) ys; Some (ss ++ ts)).
Proof.
  induction xs as [|x xs IH]; intros s; cbn [app run bind]; [cbn [rev app]; destruct (run next s ys); reflexivity|]. destruct (next s x) as [s'|]; [|reflexivity]. cbn [bind]. rewrite IH. destruct (run next (Some s') xs) as [ss|]; [|reflexivity]. cbn [bind rev].
  assert (E : match rev ss ++ [s'] with [] => s | t :: _ => Some t end = match rev ss with [] => Some s' | t :: _ => Some t end) by (destruct (rev ss); reflexivity). rewrite E.
  match goal with |- context [run next ?q ys] => destruct (run next q ys) end; reflexivity.
Qed.

(** ** Reversal *)
Lemma swap_length {A} (l : list A) i j : length (swap l i j) = length l.
Proof. unfold swap. destruct (nth_error l i), (nth_error l j); auto. now rewrite !put_length. Qed.
Lemma nth_swap {A} (l : list A) i j k : i < length l -> j < length l -> nth_error (swap l i j) k = if k =? j then nth_error l i else if k =? i then nth_error l j else nth_error l k.
Proof.
  intros Hi Hj. unfold swap. destruct (nth_error l i) as [a|] eqn:Ei; [|apply nth_error_None in Ei; lia]. destruct (nth_error l j) as [b|] eqn:Ej; [|apply nth_error_None in Ej; lia].
  rewrite nth_put, put_length. rewrite (Nat.eqb_sym k j). destruct (Nat.eqb_spec j k) as [->|N]. { destruct (Nat.ltb_spec k (length l)); [reflexivity|lia]. }
  rewrite nth_put, (Nat.eqb_sym k i). destruct (Nat.eqb_spec i k) as [->|]; auto. destruct (Nat.ltb_spec k (length l)); [reflexivity|lia].
Qed.
Lemma rev_nth_error_local {A} (l : list A) k : k < length l -> nth_error (rev l) k = nth_error l (length l - 1 - k).
Proof.
  intros H. destruct l as [|a l]; [cbn in H; lia|]. rewrite (nth_error_nth' _ a) by (rewrite rev_length; auto). rewrite rev_nth by auto.
  replace (length (a :: l) - 1 - k) with (length (a :: l) - S k) by lia. symmetry. apply nth_error_nth'. cbn in *. lia.
Qed.
Lemma reversed_rev {A} (ns : list A) : reversed ns = rev ns.
Proof.
  set (n := length ns). assert (X : forall m, m <= n / 2 -> let r := fold_left (fun r i => swap r i (length r - i - 1)) (seq 0 m) ns in
    length r = n /\ forall k, k < n -> nth_error r k = nth_error ns (if (k <? m) || (n - m <=? k) then n - 1 - k else k)).
  { induction m as [|m IH]; intros Hm; cbv zeta.
    - cbn. split; [reflexivity|]. intros k Hk. rewrite Nat.sub_0_r. destruct (Nat.ltb_spec k 0); [lia|]. destruct (Nat.leb_spec n k); [lia|reflexivity].
    - assert (H2 : n / 2 * 2 <= n) by (rewrite Nat.mul_comm; apply Nat.mul_div_le; lia). destruct IH as [L P]; [lia|]. rewrite seq_S, fold_left_app. cbn [fold_left Nat.add]. split; [now rewrite swap_length|].
      intros k Hk. rewrite nth_swap, L by (rewrite ?L; lia). rewrite !P by lia.
      repeat match goal with |- context [?a =? ?b] => destruct (Nat.eqb_spec a b) | |- context [?a <? ?b] => destruct (Nat.ltb_spec a b) | |- context [?a <=? ?b] => destruct (Nat.leb_spec a b) end; try lia; cbn [orb]; f_equal; lia. }
  destruct (X (n / 2) (le_n _)) as [L P]. apply nth_ext. intros k. destruct (Nat.lt_ge_cases k n) as [Hk|Hk].
  - unfold reversed. fold n. rewrite P by auto. rewrite rev_nth_error_local by exact Hk. f_equal. fold n.
    assert (H2 : n < n / 2 * 2 + 2) by (pose proof (Nat.mod_upper_bound n 2 ltac:(lia)); pose proof (Nat.div_mod n 2 ltac:(lia)); lia).
    destruct (Nat.ltb_spec k (n / 2)), (Nat.leb_spec (n - n / 2) k); cbn [orb]; lia.
  - unfold reversed. fold n. assert (E : forall l : list A, length l = n -> nth_error l k = None) by (intros l Hl; apply nth_error_None; lia). rewrite !E; auto. now rewrite rev_length.
Qed.

(** ** Both directions *)
Lemma fits_vec n (a : mat) : is_vec n a -> is_vector a = true.
Proof. intros (_ & _ & C). unfold is_vector. rewrite C. apply orb_true_r. Qed.
Lemma merge_value t n a b : is_vec n a -> is_vec n b -> merge t a b = Some (merged t n a b).
Proof.
  intros Fa Fb. pose proof (is_vec_self n a Fa) as Ea. pose proof (is_vec_self n b Fb) as Eb. destruct t; cbn [merge merged].
  - destruct (concat_fwd [a; b]) as (m & E & (W & R & C) & D); [cbn [forallb]; now rewrite (fits_vec n a Fa), (fits_vec n b Fb)|]. unfold concat_fn, fwd. rewrite E. f_equal. cbn [map concat] in *. rewrite app_nil_r in *. destruct m as [r c l]. cbn in *. subst. reflexivity.
  - rewrite Ea, Eb at 1. apply c_add.
  - rewrite Ea, Eb at 1. apply c_prod.
  - rewrite Ea, Eb at 1. rewrite c_add. cbn [bind]. rewrite c_prods. f_equal. apply vec_ext. intros k Hk. lra.
Qed.
Lemma each_nth {A B} (f : A -> option B) (l : list A) : (forall i a, nth_error l i = Some a -> f a <> None) ->
  exists ys, each f l = Some ys /\ length ys = length l /\ forall i a, nth_error l i = Some a -> nth_error ys i = f a.
Proof.
  induction l as [|x l IH]; intros H; cbn [each].
  - exists []. repeat split; auto. intros [|]; discriminate.
  - destruct (f x) as [y|] eqn:E; [|elim (H 0 x eq_refl E)]. cbn [bind]. destruct IH as (ys & -> & L & P); [intros i; exact (H (S i))|]. cbn [bind]. exists (y :: ys). split; [reflexivity|]. split; [cbn; lia|].
    intros [|i] a Ha; cbn in *; [congruence|auto].
Qed.
Lemma nth_indexed {A} (l : list A) k : forall a, nth_error (combine (seq a (length l)) l) k = option_map (fun x => (a + k, x)) (nth_error l k).
Proof. revert k. induction l as [|x l IH]; intros [|k] a; cbn; auto; [now rewrite Nat.add_0_r|]. rewrite IH. now rewrite Nat.add_succ_r. Qed.
Lemma birnn_value pos neg hp hn t n d xs : causal_by d pos hp -> causal_by d neg hn ->
  (forall xs a, hp xs = Some a -> is_vec n a) -> (forall xs a, hn xs = Some a -> is_vec n a) -> List.Forall (is_vec d) xs ->
  exists ys, birnn_forward pos neg t xs = Some ys /\ length ys = length xs /\
    forall i, i < length xs -> exists a b, hp (firstn (S i) xs) = Some a /\ hn (rev (skipn i xs)) = Some b /\ nth_error ys i = Some (merged t n a b).
Proof.
  intros Hp Hn Vp Vn F. destruct (Hp xs F) as (ps & Ep & Lp & Pp). destruct (Hn (rev xs) (Forall_rev F)) as (ns & En & Ln & Pn). rewrite rev_length in *.
  unfold birnn_forward. rewrite Ep, reversed_rev, En. cbn [bind]. rewrite Lp.
  assert (X : forall i, i < length xs -> exists a b, hp (firstn (S i) xs) = Some a /\ hn (rev (skipn i xs)) = Some b /\ nth_error ps i = Some a /\ nth_error ns (length xs - 1 - i) = Some b).
  { intros i Hi. pose proof (Pp i Hi) as A. pose proof (Pn (length xs - 1 - i) ltac:(lia)) as B. replace (S (length xs - 1 - i)) with (length xs - i) in B by lia.
    rewrite firstn_rev in B. replace (length xs - (length xs - i)) with i in B by lia.
    destruct (nth_error ps i) as [a|] eqn:E1; [|apply nth_error_None in E1; lia]. destruct (nth_error ns (length xs - 1 - i)) as [b|] eqn:E2; [|apply nth_error_None in E2; lia]. exists a, b. auto. }
  destruct (each_nth (fun '(i, p) => do q <- nth_error ns (length xs - 1 - i); merge t p q) (combine (seq 0 (length xs)) ps)) as (ys & E & L & P).
  - intros i [j p] Hj. rewrite <- Lp, nth_indexed in Hj. destruct (nth_error ps i) eqn:E; cbn in Hj; [|discriminate]. injection Hj as <- <-.
    assert (Hi : i < length xs) by (rewrite <- Lp; apply nth_error_Some; congruence). destruct (X i Hi) as (a & b & Ha & Hb & E1 & E2). rewrite E2. cbn [bind]. rewrite E in E1. injection E1 as ->. rewrite (merge_value t n) by eauto. discriminate.
  - exists ys. split; [exact E|]. split; [rewrite L, combine_length, seq_length; lia|]. intros i Hi. destruct (X i Hi) as (a & b & Ha & Hb & E1 & E2). exists a, b. split; auto. split; auto.
    rewrite (P i (i, a)); [rewrite E2; cbn [bind]; apply merge_value; eauto|]. rewrite <- Lp, nth_indexed, E1. reflexivity.
Qed.
Lemma after_snoc {S} (step : option S -> mat -> S) xs x : after step (xs ++ [x]) = Some (step (after step xs) x).
Proof. unfold after. now rewrite fold_left_app. Qed.
Lemma after_inv {S} (step : option S -> mat -> S) (inv : S -> Prop) : (forall s x, inv (step s x)) -> forall xs s, after step xs = Some s -> inv s.
Proof. intros H xs. destruct xs as [|x xs _] using rev_ind; [discriminate|]. intros s. rewrite after_snoc. intros [= <-]. apply H. Qed.
