(** * Proofs about multi-head attention *)
From Coq Require Import Reals List Arith Bool ZArith Lia.
From Verif Require Import DenseModel DenseSpec DenseLemmas GradModel GradSpec GradLemmas GradProofs6 GradProofs8 OpsModel OpsSpec OpsProofs4 AttModel AttSpec AttProofs MhaModel MhaSpec.
Import ListNotations.
Open Scope nat_scope.

Section P.
Variables (n L : nat) (out : nat -> nat -> mat).
Hypothesis n_pos : 0 < n.
Hypothesis out_vec : forall j i, j < n -> i < L -> is_vector (out j i) = true.
Definition heads_of : list (list node) := map (fun j => map (fun i => HeadOut j i (out j i)) (seq 0 L)) (seq 0 n).
Definition cat (i : nat) : node := Cat i (joined n out i).
Definition cell (i p : nat) : node := if p <? i then cat p else if p <? i * n then HeadOut (p mod n) (p / n) (out (p mod n) (p / n)) else Nil.

Lemma heads_len : length heads_of = n.
Proof. unfold heads_of. now rewrite map_length, seq_length. Qed.
Lemma nth_ms {A} (f : nat -> A) a m k : nth_error (map f (seq a m)) k = if k <? m then Some (f (a + k)) else None.
Proof.
  destruct (Nat.ltb_spec k m).
  - erewrite map_nth_error; [reflexivity|]. rewrite (nth_error_nth' _ 0) by (rewrite seq_length; auto). now rewrite seq_nth.
  - apply nth_error_None. rewrite map_length, seq_length. lia.
Qed.
Lemma row_value i : i < L -> each (fun h => nth_error h i) heads_of = Some (map (fun j => HeadOut j i (out j i)) (seq 0 n)).
Proof.
  intros Hi. unfold heads_of. generalize (seq 0 n). induction l as [|j l IH]; cbn [map each]; [reflexivity|].
  rewrite nth_ms. destruct (Nat.ltb_spec i L); [|lia]. cbn [bind Nat.add]. rewrite IH. reflexivity.
Qed.
Lemma div_pos k i : k < n -> (i * n + k) / n = i /\ (i * n + k) mod n = k.
Proof. intros H. split; [rewrite Nat.div_add_l by lia; rewrite Nat.div_small by auto; lia|rewrite Nat.add_comm, Nat.mod_add by lia; now apply Nat.mod_small]. Qed.
Lemma loop_value fuel : forall i, i + fuel = L ->
  project_loop heads_of i fuel (map (cell i) (seq 0 (L * n))) (map cat (seq 0 i)) = Some (map (cell L) (seq 0 (L * n)), map cat (seq 0 L)).
Proof.
  induction fuel as [|fuel IH]; intros i Hi; cbn [project_loop]; [now replace i with L by lia|].
  rewrite heads_len, row_value by lia. cbn [bind].
  set (row := map (fun j => HeadOut j i (out j i)) (seq 0 n)). assert (Lr : length row = n) by (unfold row; now rewrite map_length, seq_length).
  set (buf := map (cell i) (seq 0 (L * n))). assert (Lb : length buf = L * n) by (unfold buf; now rewrite map_length, seq_length).
  assert (Fit : i * n + length row <= length buf) by (rewrite Lr, Lb; nia).
  assert (Es : slice (blit buf (i * n) row) (i * n) (i * n + n) = row).
  { apply nth_ext. intros k. rewrite nth_slice. replace (i * n + n - i * n) with n by lia. destruct (Nat.ltb_spec k n).
    - rewrite nth_blit by auto. destruct (Nat.leb_spec (i * n) (i * n + k)), (Nat.ltb_spec (i * n + k) (i * n + length row)); try lia. cbn [andb]. f_equal. lia.
    - symmetry. apply nth_error_None. lia. }
  rewrite Es. unfold row. rewrite (each_map value (fun x => match x with HeadOut _ _ v => v | _ => mkDense 0 0 [] end)) by (intros x Hx; apply in_map_iff in Hx; destruct Hx as (j & <- & _); reflexivity).
  cbn [bind]. rewrite map_map.
  destruct (concat_fwd (map (fun j => out j i) (seq 0 n))) as (m & Em & Fm & Dm).
  { rewrite forallb_forall. intros x Hx. apply in_map_iff in Hx. destruct Hx as (j & <- & Hj). apply in_seq in Hj. apply out_vec; lia. }
  assert (E : fwd concat_fn (map (fun j => out j i) (seq 0 n)) = Some (joined n out i)).
  { cbn [fwd concat_fn]. rewrite Em. transitivity (Some m); [destruct n; [lia|reflexivity]|]. f_equal. destruct m as [r c l]. destruct Fm as (_ & Hr & Hc). cbn in *. subst. unfold joined, column. now rewrite map_map. }
  rewrite E. cbn [bind]. fold row.
  replace (map cat (seq 0 i) ++ [Cat i (joined n out i)]) with (map cat (seq 0 (S i))) by (rewrite seq_S, map_app; reflexivity).
  rewrite <- (IH (S i)) by lia. f_equal. apply nth_ext. intros p.
  rewrite nth_put, blit_length by auto. unfold buf. rewrite map_length, seq_length. fold buf. rewrite nth_blit by auto.
  rewrite nth_ms. unfold buf. rewrite nth_ms. cbn [Nat.add]. unfold cell.
  assert (Hn : i < L * n) by nia. destruct (Nat.ltb_spec p (L * n)) as [Hp|Hp].
  2:{ destruct (Nat.eqb_spec i p); [lia|]. destruct (Nat.leb_spec (i * n) p), (Nat.ltb_spec p (i * n + length row)); cbn [andb]; try reflexivity. rewrite Lr in *. exfalso. nia. }
  destruct (Nat.eqb_spec i p) as [->|Ne].
  - destruct (Nat.ltb_spec p (L * n)); [|lia]. destruct (Nat.ltb_spec p (S p)); [|lia]. reflexivity.
  - rewrite Lr. destruct (Nat.leb_spec (i * n) p), (Nat.ltb_spec p (i * n + n)); cbn [andb].
    + unfold row. rewrite nth_ms. destruct (Nat.ltb_spec (p - i * n) n); [|lia]. cbn [Nat.add].
      destruct (div_pos (p - i * n) i) as [D M]; [lia|]. replace (i * n + (p - i * n)) with p in * by lia.
      destruct (Nat.ltb_spec p (S i)); [exfalso; nia|]. destruct (Nat.ltb_spec p (S i * n)); [|lia]. now rewrite D, M.
    + destruct (Nat.ltb_spec p i); [nia|]. destruct (Nat.ltb_spec p (i * n)); [lia|]. destruct (Nat.ltb_spec p (S i)); [nia|]. destruct (Nat.ltb_spec p (S i * n)); [lia|]. reflexivity.
    + destruct (Nat.ltb_spec p i), (Nat.ltb_spec p (S i)); try lia; [reflexivity|]. destruct (Nat.ltb_spec p (i * n)); [|lia]. destruct (Nat.ltb_spec p (S i * n)); [|lia]. reflexivity.
    + lia.
Qed.
Lemma project_value : project heads_of L = Some (map (fun p => if p <? L then cat p else HeadOut (p mod n) (p / n) (out (p mod n) (p / n))) (seq 0 (L * n)), map cat (seq 0 L)).
Proof.
  unfold project. rewrite heads_len. replace (repeat Nil (L * n)) with (map (cell 0) (seq 0 (L * n))).
  - change (@nil node) with (map cat (seq 0 0)). rewrite loop_value by lia. f_equal. f_equal. apply map_ext_in. intros p Hp. apply in_seq in Hp. unfold cell. destruct (p <? L); [reflexivity|].
    destruct (Nat.ltb_spec p (L * n)); [reflexivity|lia].
  - generalize (L * n). intros m. generalize 0 at 2. induction m as [|m IH]; intros a; cbn; [reflexivity|]. now rewrite IH.
Qed.
Lemma operands_value i : i < L ->
  operands n (map (fun p => if p <? L then cat p else HeadOut (p mod n) (p / n) (out (p mod n) (p / n))) (seq 0 (L * n))) i =
  map (fun j => if i * n + j <? L then cat (i * n + j) else HeadOut j i (out j i)) (seq 0 n).
Proof.
  intros Hi. unfold operands. apply nth_ext. intros k. rewrite nth_slice, !nth_ms. replace (i * n + n - i * n) with n by lia. cbn [Nat.add].
  destruct (Nat.ltb_spec k n); [|reflexivity]. destruct (Nat.ltb_spec (i * n + k) (L * n)); [|nia]. destruct (div_pos k i) as [-> ->]; [auto|]. reflexivity.
Qed.
End P.

Lemma requires_blocks ops head_req i l v fuel : ops i = Cat i v :: l -> 2 <= fuel -> requires_grad ops head_req fuel [] (Cat i v) = Blocks.
Proof.
  intros E F. destruct fuel as [|[|fuel]]; try lia. cbn [requires_grad existsb]. rewrite E. cbn [requires_grad existsb]. now rewrite Nat.eqb_refl.
Qed.

Lemma mha_value wide m caches q x rs dv dm : mh_heads m <> [] -> length caches = length (mh_heads m) ->
  each (fun '(h, c) => self_forward wide h c q x) (combine (mh_heads m) caches) = Some rs ->
  List.Forall (fun r => length (fst (fst r)) = length q /\ List.Forall (is_vec dv) (fst (fst r))) rs ->
  linear_fits (mh_merge m) dm (length (mh_heads m) * dv) ->
  mha_forward wide m caches q x = Some (map (fun i => layer dm (mh_merge m) (joined (length (mh_heads m)) (nth_out rs) i)) (seq 0 (length q)), map snd rs,
    map (fun p => if p <? length q then cat (length (mh_heads m)) (nth_out rs) p else HeadOut (p mod length (mh_heads m)) (p / length (mh_heads m)) (nth_out rs (p mod length (mh_heads m)) (p / length (mh_heads m)))) (seq 0 (length q * length (mh_heads m)))).
Proof.
  intros Hne Hc E F Fl. set (n := length (mh_heads m)) in *.
  assert (Ln : length rs = n).
  { assert (X : forall A B (f : A -> option B) l r, each f l = Some r -> length r = length l).
    { clear. intros A B f. induction l as [|a l IH]; intros r; cbn [each]; [intros E; injection E as <-; reflexivity|].
      destruct (f a); cbn [bind]; [|discriminate]. destruct (each f l); cbn [bind]; [|discriminate]. intros E. injection E as <-. cbn. f_equal. now apply IH. }
    rewrite (X _ _ _ _ _ E), combine_length, Hc. fold n. lia. }
  assert (Hn : 0 < n) by (unfold n; destruct (mh_heads m); [congruence|cbn; lia]).
  unfold mha_forward. rewrite E. cbn [bind].
  assert (Hout : forall j i, j < n -> i < length q -> is_vec dv (nth_out rs j i)).
  { intros j i Hj Hi. unfold nth_out, kth. rewrite Forall_forall in F.
    assert (H : In (nth j (map (fun r => fst (fst r)) rs) []) (map (fun r => fst (fst r)) rs)) by (apply nth_In; rewrite map_length; lia).
    apply in_map_iff in H. destruct H as (r & <- & Hr). destruct (F r Hr) as [Lr Fr]. rewrite Forall_forall in Fr. apply Fr. apply nth_In. lia. }
  match goal with |- context [project ?h _] => assert (Eh : h = heads_of n (length q) (nth_out rs)) end.
  { unfold heads_of. rewrite <- Ln. fold (indexed rs).
    rewrite (indexed_outputs (fun j (r : list mat * list mat * (mat * mat)) => map (fun '(i, v) => HeadOut j i v) (combine (seq 0 (length (fst (fst r)))) (fst (fst r)))) (([], []), (mkDense 0 0 [], mkDense 0 0 [])) rs).
    apply map_ext_in. intros j Hj. apply in_seq in Hj.
    assert (Hr : In (nth j rs (([], []), (mkDense 0 0 [], mkDense 0 0 []))) rs) by (apply nth_In; lia).
    rewrite Forall_forall in F. destruct (F _ Hr) as [Lr _].
    fold (indexed (fst (fst (nth j rs (([], []), (mkDense 0 0 [], mkDense 0 0 [])))))). rewrite (indexed_outputs (fun i v => HeadOut j i v) (mkDense 0 0 [])). rewrite Lr. apply map_ext. intros i.
    f_equal. unfold nth_out, kth. f_equal. symmetry. exact (map_nth (fun r : list mat * list mat * (mat * mat) => fst (fst r)) rs (([], []), (mkDense 0 0 [], mkDense 0 0 [])) j). }
  rewrite Eh, (project_value n (length q) (nth_out rs)); [|auto|].
  2:{ intros j i Hj Hi. unfold is_vector. destruct (Hout j i Hj Hi) as (_ & _ & ->). apply orb_true_r. }
  cbn [bind fst snd]. rewrite (each_map value (fun x => match x with Cat _ v => v | _ => mkDense 0 0 [] end)) by (intros y Hy; apply in_map_iff in Hy; destruct Hy as (i & <- & _); reflexivity).
  cbn [bind]. rewrite map_map. rewrite (layers_value wide dm (n * dv)); [|auto|].
  - cbn [bind]. rewrite map_map. reflexivity.
  - apply Forall_forall. intros y Hy. apply in_map_iff in Hy. destruct Hy as (i & <- & Hi). apply in_seq in Hi. unfold cat, joined, column.
    replace (length (concat (map (fun j => data (nth_out rs j i)) (seq 0 n)))) with (n * dv); [apply fits_mk|]; rewrite ?Nat.mul_1_r;
      pose proof (concat_len dv (map (fun j => nth_out rs j i) (seq 0 n))) as C; rewrite map_map, map_length, seq_length in C; [apply C|symmetry; apply C];
      apply Forall_forall; intros y Hy; apply in_map_iff in Hy; destruct Hy as (j & <- & Hj); apply in_seq in Hj; apply Hout; lia.
Qed.
