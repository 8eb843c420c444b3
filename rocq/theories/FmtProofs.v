(** * The printed text *)
From Coq Require Import Ascii String List Arith Bool ZArith Lia.
From Verif Require Import DenseModel DenseSpec DenseLemmas GradModel OpsModel OpsProofs4 ConvProofs2 FmtModel FmtSpec.
Import ListNotations.
Open Scope nat_scope.

(** ** Maxima *)
Definition maxf (n : nat) (f : nat -> nat) : nat := fold_left (fun m i => Nat.max m (f i)) (seq 0 n) 0.
Lemma maxf_S n f : maxf (S n) f = Nat.max (maxf n f) (f n).
Proof. unfold maxf. now rewrite seq_S, fold_left_app. Qed.
Lemma maxf_ge n f i : i < n -> f i <= maxf n f.
Proof. induction n as [|n IH]; intros H; [lia|]. rewrite maxf_S. destruct (Nat.eq_dec i n) as [->|]; [lia|]. specialize (IH ltac:(lia)). lia. Qed.
Lemma maxf_le n f m : (forall i, i < n -> f i <= m) -> maxf n f <= m.
Proof. induction n as [|n IH]; intros H; [cbn; lia|]. rewrite maxf_S. pose proof (H n ltac:(lia)). specialize (IH ltac:(intros; apply H; lia)). lia. Qed.
Lemma maxf_at n f : 0 < n -> exists i, i < n /\ maxf n f = f i.
Proof.
  induction n as [|n IH]; intros H; [lia|]. rewrite maxf_S. destruct (Nat.max_spec (maxf n f) (f n)) as [(A & ->)|(A & ->)]; [exists n; split; [lia|auto]|].
  destruct n as [|n]; [exists 0; split; [lia|cbn in *; lia]|]. destruct (IH ltac:(lia)) as (i & Hi & E). exists i. split; [lia|exact E].
Qed.

(** ** Points and blanks *)
Definition before_n (s : string) : nat := match index_dot s with Some p => p | None => String.length s end.
Definition after_n (s : string) : nat := match index_dot s with Some p => String.length s - p - 1 | None => 0 end.
Definition left_n (w : nat) (s : string) : nat := match index_dot s with Some p => if String.length s <? w then p + (w - String.length s) else p | None => String.length s end.
Lemma widen_eq w s p : widen w s p = (Nat.max (fst p) (left_n w s), Nat.max (snd p) (after_n s)).
Proof. unfold widen, left_n, after_n. destruct (index_dot s); [reflexivity|]. f_equal. lia. Qed.
Lemma left_before w s : before_n s <= left_n w s.
Proof. unfold before_n, left_n. destruct (index_dot s); [|lia]. destruct (_ <? _); lia. Qed.
Lemma index_dot_lt s p : index_dot s = Some p -> p < String.length s.
Proof. revert p. induction s as [|a s IH]; intros p; cbn; [discriminate|]. destruct (Ascii.eqb a "."); [intros [= <-]; lia|]. destruct (index_dot s); [|discriminate]. intros [= <-]. specialize (IH n eq_refl). lia. Qed.
Lemma before_len s : before_n s <= String.length s.
Proof. unfold before_n. destruct (index_dot s) eqn:E; [|lia]. apply index_dot_lt in E. lia. Qed.
Lemma after_len s : after_n s = 0 \/ after_n s < String.length s.
Proof. unfold after_n. destruct (index_dot s) eqn:E; [|auto]. apply index_dot_lt in E. lia. Qed.
Lemma index_dot_none s : index_dot s = None <-> pointless s.
Proof.
  unfold pointless. induction s as [|a s IH]; cbn; [split; auto|]. destruct (Ascii.eqb_spec a "."%char) as [->|N].
  - split; [discriminate|]. intros H. elim H. auto.
  - destruct (index_dot s); split; intros H; try discriminate; try reflexivity.
    + elim H. right. destruct IH as (_ & IH). destruct (in_dec ascii_dec "."%char (list_ascii_of_string s)); auto. specialize (IH n0). discriminate.
    + intros [E|E]; [congruence|]. now apply IH.
Qed.
Lemma index_dot_some s p : index_dot s = Some p <-> point_at s p.
Proof.
  unfold point_at. revert p. induction s as [|a s IH]; intros p; cbn.
  - split; [discriminate|]. intros (u & v & E & _). destruct u; discriminate.
  - destruct (Ascii.eqb_spec a "."%char) as [->|N].
    + split.
      * intros [= <-]. exists EmptyString, s. cbn. auto.
      * intros (u & v & E & L & D). destruct u as [|b u]; [cbn in L; congruence|]. cbn in E. injection E as <- E. elim D. cbn. auto.
    + split.
      * destruct (index_dot s) as [q|]; [|discriminate]. intros [= <-]. destruct (proj1 (IH q) eq_refl) as (u & v & E & L & D). exists (String a u), v. cbn. rewrite E, L. repeat split; auto. intros [X|X]; auto.
      * intros (u & v & E & L & D). destruct u as [|b u]; [cbn in E; congruence|]. cbn in E, L, D. injection E as <- E. rewrite (proj2 (IH (String.length u))); [now rewrite L|]. exists u, v. repeat split; auto.
Qed.
Lemma before_spec s : before s (before_n s).
Proof. unfold before, before_n. destruct (index_dot s) eqn:E; [left; now apply index_dot_some|right; split; [now apply index_dot_none|reflexivity]]. Qed.
Lemma before_unique s n : before s n -> n = before_n s.
Proof. unfold before, before_n. intros [H|(H & ->)]; [apply index_dot_some in H; now rewrite H|apply index_dot_none in H; now rewrite H]. Qed.
Lemma blanks_spec n : is_blank (blanks n) n.
Proof. unfold is_blank. induction n as [|n (L & A)]; cbn; [split; [auto|intros a []]|]. split; [now rewrite L|]. intros a [<-|H]; auto. Qed.

(** ** One value *)
Definition right_n (r : nat) (s : string) : nat := match index_dot s with Some _ => r - after_n s | None => if 0 <? r then S r else 0 end.
Lemma write_value_eq mw l r s : before_n s <= l -> after_n s <= r -> r = 0 \/ r < mw ->
  write_value mw (l, r) s = if l - before_n s <=? mw then Some (blanks (l - before_n s) ++ s ++ blanks (right_n r s))%string else None.
Proof.
  intros Hl Hr Hm. unfold write_value, right_n, before_n, after_n, space_buf in *. cbn [fst snd]. destruct (index_dot s) as [p|] eqn:E.
  - apply index_dot_lt in E. destruct (Z.leb_spec 0 (Z.of_nat l - Z.of_nat p)); [|lia]. cbn [andb].
    destruct (Z.leb_spec (Z.of_nat l - Z.of_nat p) (Z.of_nat mw)), (Nat.leb_spec (l - p) mw); try lia; cbn [bind]; [|reflexivity].
    destruct (Z.leb_spec 0 (Z.of_nat r - (Z.of_nat (String.length s) - Z.of_nat p - 1))); [|lia].
    destruct (Z.leb_spec (Z.of_nat r - (Z.of_nat (String.length s) - Z.of_nat p - 1)) (Z.of_nat mw)); [|lia]. cbn [andb bind]. do 2 f_equal; [f_equal; lia|]. f_equal. f_equal. lia.
  - destruct (Z.leb_spec 0 (Z.of_nat l - Z.of_nat (String.length s))); [|lia]. cbn [andb].
    destruct (Z.leb_spec (Z.of_nat l - Z.of_nat (String.length s)) (Z.of_nat mw)), (Nat.leb_spec (l - String.length s) mw); try lia; cbn [bind]; [|reflexivity].
    destruct (Nat.ltb_spec 0 r).
    + destruct (Z.leb_spec 0 (Z.of_nat r + 1)); [|lia]. destruct (Z.leb_spec (Z.of_nat r + 1) (Z.of_nat mw)); [|lia]. cbn [andb bind]. do 2 f_equal; [f_equal; lia|]. f_equal. f_equal. lia.
    + destruct (Z.leb_spec 0 (Z.of_nat r)); [|lia]. destruct (Z.leb_spec (Z.of_nat r) (Z.of_nat mw)); [|lia]. cbn [andb bind]. do 2 f_equal; [f_equal; lia|]. f_equal. f_equal. lia.
Qed.

(** ** The loops *)
Lemma fold_opt_app {A B} (f : B -> A -> option B) l l' s : fold_opt f (l ++ l') s = (do s' <- fold_opt f l s; fold_opt f l' s').
Proof. revert s. induction l as [|a l IH]; intros s; [reflexivity|]. cbn. destruct (f s a); cbn; auto. Qed.
Lemma each_snoc {A B} (f : A -> option B) l x : each f (l ++ [x]) = (do ys <- each f l; do y <- f x; Some (ys ++ [y])).
Proof. induction l as [|a l IH]; cbn; [now destruct (f x)|]. destruct (f a); cbn; [|reflexivity]. rewrite IH. destruct (each f l); cbn; [|reflexivity]. now destruct (f x). Qed.
Lemma append_assoc a b c : ((a ++ b) ++ c)%string = (a ++ (b ++ c))%string.
Proof. induction a as [|x a IH]; cbn; [reflexivity|]. now rewrite IH. Qed.
Lemma append_nil a : (a ++ "")%string = a.
Proof. induction a as [|x a IH]; cbn; [reflexivity|]. now rewrite IH. Qed.
Lemma concat_snoc sep l x : String.concat sep (l ++ [x]) = (String.concat sep l ++ (match l with [] => "" | _ => sep end) ++ x)%string.
Proof.
  induction l as [|y l IH]; [reflexivity|]. cbn [app]. destruct l as [|z l]; [reflexivity|].
  change (String.concat sep (y :: (z :: l) ++ [x])) with (y ++ sep ++ String.concat sep ((z :: l) ++ [x]))%string. rewrite IH.
  change (String.concat sep (y :: z :: l)) with (y ++ sep ++ String.concat sep (z :: l))%string. now rewrite !append_assoc.
Qed.

Section Loops.
Context {T : Type}.
Variable append_float : Z -> Z -> T -> string.
Variables (c precision : Z) (W : nat) (d : dense T) (val : nat -> string).
Hypothesis Hw : wf d.
Hypothesis Hv : forall k, k < rows d * cols d -> option_map (format_value append_float c precision) (nth_error (data d) k) = Some (val k).
Notation v i j := (val (i * cols d + j)).

Definition wpair (m j : nat) : nat * nat := (maxf m (fun i => left_n W (v i j)), maxf m (fun i => after_n (v i j))).
Definition wstate (i m : nat) : list (nat * nat) := map (fun j => wpair (if j <? m then S i else i) j) (seq 0 (cols d)).
Lemma width_row i : i < rows d -> forall m, m <= cols d ->
  fold_opt (width_step append_float c precision W d) (seq 0 m) (wstate i 0, maxf (i * cols d) (fun k => String.length (val k)), i * cols d)
  = Some (wstate i m, maxf (i * cols d + m) (fun k => String.length (val k)), i * cols d + m).
Proof.
  intros Hi. induction m as [|m IH]; intros Hm; [now rewrite !Nat.add_0_r|]. rewrite seq_S, fold_opt_app, IH by lia. cbn [bind Nat.add fold_opt]. unfold width_step.
  assert (K : i * cols d + m < rows d * cols d) by nia. specialize (Hv _ K). destruct (nth_error (data d) (i * cols d + m)) as [x|]; [|discriminate]. cbn in Hv. injection Hv as Hv'. cbn [bind].
  assert (N : nth_error (wstate i m) m = Some (wpair i m)).
  { unfold wstate. rewrite nth_error_map. rewrite (nth_error_nth' _ 0) by (rewrite seq_length; lia). rewrite seq_nth by lia. cbn [option_map Nat.add]. now rewrite Nat.ltb_irrefl. }
  rewrite N. cbn [bind]. rewrite Hv', widen_eq. do 2 f_equal; [f_equal|lia].
  - unfold wstate. apply DenseLemmas.nth_ext. intros k. rewrite nth_put, map_length, seq_length, !nth_error_map.
    destruct (Nat.ltb_spec k (cols d)) as [Hk|Hk].
    + rewrite !(nth_error_nth' _ 0) by (rewrite seq_length; lia). rewrite seq_nth by lia. cbn [option_map Nat.add].
      destruct (Nat.eqb_spec m k) as [<-|]; [destruct (Nat.ltb_spec m (S m)); [|lia]; unfold wpair; cbn [fst snd]; now rewrite !maxf_S|].
      destruct (Nat.ltb_spec k m), (Nat.ltb_spec k (S m)); try lia; reflexivity.
    + rewrite (proj2 (nth_error_None (seq 0 (cols d)) k)) by (rewrite seq_length; lia). cbn. destruct (m =? k); reflexivity.
  - rewrite Nat.add_succ_r. now rewrite maxf_S.
Qed.
Definition mw : nat := maxf (rows d * cols d) (fun k => String.length (val k)).
Lemma widths_eq : column_widths append_float c precision W d = Some (map (wpair (rows d)) (seq 0 (cols d)), mw).
Proof.
  unfold column_widths.
  assert (X : forall n, n <= rows d -> fold_opt (fun st _ => fold_opt (width_step append_float c precision W d) (seq 0 (cols d)) st) (seq 0 n) (repeat (0, 0) (cols d), 0, 0)
    = Some (map (wpair n) (seq 0 (cols d)), maxf (n * cols d) (fun k => String.length (val k)), n * cols d)).
  { induction n as [|n IH]; intros Hn.
    - cbn. do 3 f_equal. assert (Y : forall q s, repeat (0, 0) q = map (wpair 0) (seq s q)) by (induction q as [|q IHq]; intros s; [reflexivity|]; cbn; f_equal; apply IHq). apply Y.
    - rewrite seq_S, fold_opt_app, IH by lia. cbn [bind Nat.add fold_opt].
      replace (map (wpair n) (seq 0 (cols d))) with (wstate n 0) by reflexivity. rewrite width_row by lia. cbn [bind].
      replace (n * cols d + cols d) with (S n * cols d) by lia.
      replace (wstate n (cols d)) with (map (wpair (S n)) (seq 0 (cols d))); [reflexivity|].
      unfold wstate. apply map_ext_in. intros j Hj. apply in_seq in Hj. destruct (Nat.ltb_spec j (cols d)); [reflexivity|lia]. }
  rewrite X by lia. reflexivity.
Qed.

(** the text of cell (i, j), if there is no panic *)
Definition lpad (i j : nat) : nat := fst (wpair (rows d) j) - before_n (v i j).
Definition rpad (i j : nat) : nat := right_n (snd (wpair (rows d) j)) (v i j).
Definition cell (i j : nat) : option string := if lpad i j <=? mw then Some (blanks (lpad i j) ++ v i j ++ blanks (rpad i j))%string else None.
Lemma value_cell i j : i < rows d -> j < cols d -> write_value mw (wpair (rows d) j) (v i j) = cell i j.
Proof.
  intros Hi Hj. unfold wpair at 1. rewrite write_value_eq.
  - reflexivity.
  - pose proof (maxf_ge (rows d) (fun i => left_n W (v i j)) i Hi) as M. cbv beta in M. pose proof (left_before W (v i j)). lia.
  - apply (maxf_ge (rows d) (fun i => after_n (v i j)) i Hi).
  - destruct (maxf_at (rows d) (fun i => after_n (v i j))) as (a & Ha & ->); [lia|]. destruct (after_len (v a j)) as [E|E]; [auto|]. right.
    assert (K : a * cols d + j < rows d * cols d) by nia. pose proof (maxf_ge _ (fun k => String.length (val k)) _ K) as M. fold mw in M. cbv beta in M. lia.
Qed.
Lemma row_text i out : i < rows d -> forall m, m <= cols d ->
  fold_opt (write_cell append_float c precision d (map (wpair (rows d)) (seq 0 (cols d))) mw) (seq 0 m) (out, i * cols d)
  = (do ts <- each (cell i) (seq 0 m); Some ((out ++ String.concat " " ts)%string, i * cols d + m)).
Proof.
  intros Hi. induction m as [|m IH]; intros Hm; [cbn; rewrite Nat.add_0_r, append_nil; reflexivity|]. rewrite seq_S, fold_opt_app, IH, each_snoc by lia.
  cbn [Nat.add]. destruct (each (cell i) (seq 0 m)) as [ts|] eqn:E; cbn [bind]; [|reflexivity]. apply each_forward in E as (L & _). cbn [fold_opt]. unfold write_cell.
  assert (K : i * cols d + m < rows d * cols d) by nia. specialize (Hv _ K). destruct (nth_error (data d) (i * cols d + m)) as [x|]; [|discriminate]. cbn in Hv. injection Hv as Hv'. cbn [bind].
  rewrite nth_error_map, (nth_error_nth' _ 0) by (rewrite seq_length; lia). rewrite seq_nth by lia. cbn [option_map bind Nat.add]. rewrite Hv', value_cell by lia.
  destruct (cell i m); cbn [bind]; [|reflexivity]. do 2 f_equal; [|lia]. rewrite concat_snoc. destruct ts as [|t ts]; cbn [length] in L; subst m; cbn [Nat.ltb Nat.leb]; [now rewrite append_assoc|].
  now rewrite !append_assoc.
Qed.
Lemma prefix_brackets i : i < rows d -> prefix_suffix d i = brackets (rows d) i.
Proof.
  intros Hi. unfold prefix_suffix, brackets, newline. destruct (rows d) as [|[|r]]; [lia|reflexivity|]. cbn [Nat.eqb]. destruct (Nat.eqb_spec i 0); [reflexivity|].
  destruct (Z.eqb_spec (Z.of_nat i) (Z.of_nat (S (S r)) - 1)), (Nat.eqb_spec i (S r)); try lia; reflexivity.
Qed.
Lemma all_text : forall n, n <= rows d ->
  fold_opt (write_row append_float c precision d (map (wpair (rows d)) (seq 0 (cols d))) mw) (seq 0 n) (EmptyString, 0)
  = (do ls <- each (fun i => do ts <- each (cell i) (seq 0 (cols d)); Some (fst (brackets (rows d) i) ++ String.concat " " ts ++ snd (brackets (rows d) i))%string) (seq 0 n);
     Some (String.concat "" ls, n * cols d)).
Proof.
  induction n as [|n IH]; intros Hn; [reflexivity|]. rewrite seq_S, fold_opt_app, IH, each_snoc by lia. cbn [Nat.add].
  destruct (each _ (seq 0 n)) as [ls|]; cbn [bind]; [|reflexivity]. cbn [fold_opt]. unfold write_row. rewrite prefix_brackets by lia. destruct (brackets (rows d) n) as (pre, suf) eqn:B. cbn [fst snd].
  rewrite row_text by lia. destruct (each (cell n) (seq 0 (cols d))) as [ts|]; cbn [bind]; [|reflexivity]. cbn [fst snd]. do 2 f_equal; [|lia].
  rewrite concat_snoc. destruct ls; cbn [String.concat]; rewrite ?append_assoc; reflexivity.
Qed.
Lemma body_ok : (forall i j, i < rows d -> j < cols d -> lpad i j <= mw) ->
  format_body append_float c precision W d = Some (page (rows d) (cols d) (fun i j => blanks (lpad i j) ++ v i j ++ blanks (rpad i j))%string).
Proof.
  intros H. unfold format_body. rewrite widths_eq. cbn [bind fst snd]. rewrite all_text by lia.
  rewrite (each_map _ (fun i => (fst (brackets (rows d) i) ++ String.concat " " (map (fun j => blanks (lpad i j) ++ v i j ++ blanks (rpad i j))%string (seq 0 (cols d))) ++ snd (brackets (rows d) i))%string)); [reflexivity|].
  intros i Hi. apply in_seq in Hi. rewrite (each_map _ (fun j => blanks (lpad i j) ++ v i j ++ blanks (rpad i j))%string); [reflexivity|]. intros j Hj. apply in_seq in Hj. unfold cell.
  destruct (Nat.leb_spec (lpad i j) mw); [reflexivity|]. specialize (H i j). lia.
Qed.
Lemma body_panics i j : i < rows d -> j < cols d -> mw < lpad i j -> format_body append_float c precision W d = None.
Proof.
  intros Hi Hj H. unfold format_body. rewrite widths_eq. cbn [bind fst snd]. rewrite all_text by lia.
  rewrite (each_none _ _ i); [reflexivity|apply in_seq; lia|]. rewrite (each_none _ _ j); [reflexivity|apply in_seq; lia|]. unfold cell. destruct (Nat.leb_spec (lpad i j) mw); [lia|reflexivity].
Qed.
End Loops.
