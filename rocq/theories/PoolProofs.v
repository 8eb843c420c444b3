(** * Max pooling: the scan of a window, the gradient *)
From Coq Require Import Reals List Arith Bool ZArith Lia Lra.
From Coquelicot Require Import Coquelicot.
From Verif Require Import DenseModel DenseSpec DenseLemmas DenseProofs DenseProofs2 ArithModel ArithSpec ArithProofs GradModel GradSpec GradLemmas GradProofs GradProofs5 GradProofs6 GradProofs9 OpsModel OpsProofs4 PoolModel.
Import ListNotations.
Open Scope R_scope.

(** ** Reading and writing one element *)
Lemma at2 (m : mat) r c i j : fits m r c -> (i < r)%nat -> (j < c)%nat -> at_ m [Z.of_nat i; Z.of_nat j] = Some (nth (i * c + j) (data m) 0).
Proof.
  intros (Hw & <- & <-) Hi Hj. rewrite at_two. destruct (Z.leb_spec 0 (Z.of_nat i)), (Z.leb_spec 0 (Z.of_nat j)); try lia. cbn [andb].
  rewrite !Nat2Z.id, elem_in by auto. apply nth_error_nth'. rewrite Hw. apply idx_lt; auto.
Qed.
Lemma at2_out (m : mat) r c i j : fits m r c -> (r <= i \/ c <= j)%nat -> at_ m [Z.of_nat i; Z.of_nat j] = None.
Proof.
  intros (Hw & <- & <-) H. rewrite at_two. destruct (Z.leb_spec 0 (Z.of_nat i)), (Z.leb_spec 0 (Z.of_nat j)); try lia. cbn [andb].
  rewrite !Nat2Z.id. unfold elem. destruct (Nat.ltb_spec i (rows m)), (Nat.ltb_spec j (cols m)); try lia; reflexivity.
Qed.
Lemma set2 (m : mat) r c i j v : fits m r c -> (i < r)%nat -> (j < c)%nat -> set_ m v [Z.of_nat i; Z.of_nat j] = Some (mkDense r c (put (data m) (i * c + j) v)).
Proof.
  intros (Hw & <- & <-) Hi Hj. unfold set_. rewrite offset_two.
  destruct (Z.leb_spec 0 (Z.of_nat i)), (Z.ltb_spec (Z.of_nat i) (Z.of_nat (rows m))), (Z.leb_spec 0 (Z.of_nat j)), (Z.ltb_spec (Z.of_nat j) (Z.of_nat (cols m))); try lia. cbn [andb].
  rewrite !Nat2Z.id, Hw. pose proof (idx_lt (rows m) (cols m) i j Hi Hj). destruct (Nat.ltb_spec (i * cols m + j) (rows m * cols m)); [reflexivity|lia].
Qed.

(** ** The scan *)
Definition pick (f : nat * nat -> R) (l : list (nat * nat)) (st : R * (nat * nat)) : R * (nat * nat) :=
  fold_left (fun st p => if Rltb (fst st) (f p) then (f p, p) else st) l st.

Lemma pick_spec f l : forall m0 p0, let r := pick f l (m0, p0) in
  (forall q, In q l -> f q <= fst r) /\ m0 <= fst r /\ (r = (m0, p0) \/ In (snd r) l /\ fst r = f (snd r) /\ m0 < fst r).
Proof.
  induction l as [|q l IH]; intros m0 p0; cbv zeta.
  - cbn. split; [tauto|]. split; [lra|auto].
  - unfold pick. cbn [fold_left fst]. destruct (Rlt_dec m0 (f q)) as [C|C].
    + rewrite Rltb_true by auto. destruct (IH (f q) q) as (A & B & D). fold (pick f l (f q, q)). split; [|split].
      * intros q' [<-|Hq]; auto.
      * lra.
      * right. destruct D as [->|(D1 & D2 & D3)]; [cbn; auto|]. split; [right; auto|]. split; auto. lra.
    + rewrite Rltb_false by lra. destruct (IH m0 p0) as (A & B & D). fold (pick f l (m0, p0)). split; [|split; [auto|]].
      * intros q' [<-|Hq]; auto. lra.
      * destruct D as [D|(D1 & D2)]; [auto|]. right. split; [right; auto|auto].
Qed.
Lemma pick_strict f l m0 p0 q : In q l -> m0 < f q -> (forall q', In q' l -> q' <> q -> f q' < f q) -> pick f l (m0, p0) = (f q, q).
Proof.
  intros Hq H0 H. destruct (pick_spec f l m0 p0) as (A & B & D). pose proof (A q Hq) as Aq.
  destruct D as [D|(D1 & D2 & D3)]; [rewrite D in Aq; cbn in Aq; lra|].
  destruct (pick f l (m0, p0)) as (m, p). cbn in *. assert (p = q) as ->; [|congruence].
  destruct (Nat.eq_dec (fst p) (fst q)), (Nat.eq_dec (snd p) (snd q)); [destruct p, q; cbn in *; congruence| | |];
    exfalso; (assert (Hne : p <> q) by (intros ->; lia)); specialize (H p D1 Hne); lra.
Qed.

Definition window (pr pc row col : nat) : list (nat * nat) := list_prod (seq (row * pr) pr) (seq (col * pc) pr).
Lemma in_window p row col q : In q (window p p row col) <-> (row * p <= fst q < row * p + p /\ col * p <= snd q < col * p + p)%nat.
Proof. destruct q as (i, j). unfold window. rewrite in_prod_iff, !in_seq. cbn. tauto. Qed.

Lemma scan_row x r c i cs : fits x r c -> (i < r)%nat -> (forall j, In j cs -> (j < c)%nat) -> forall st,
  fold_opt (pool_step x i) cs st = Some (pick (fun p => rget x (fst p) (snd p)) (map (fun j => (i, j)) cs) st).
Proof.
  intros Hx Hi. induction cs as [|j cs IH]; intros Hc st; [reflexivity|].
  cbn [fold_opt]. unfold pool_step at 1. rewrite (at2 x r c) by (auto; apply Hc; left; auto). cbn [bind].
  rewrite <- (rget_flat x r c) by (auto; apply Hc; left; auto). rewrite IH by (intros; apply Hc; right; auto). reflexivity.
Qed.
Lemma pick_app f l l' st : pick f (l ++ l') st = pick f l' (pick f l st).
Proof. unfold pick. apply fold_left_app. Qed.
Lemma scan_all x r c rs cs : fits x r c -> (forall i, In i rs -> (i < r)%nat) -> (forall j, In j cs -> (j < c)%nat) -> forall st,
  fold_opt (fun st i => fold_opt (pool_step x i) cs st) rs st = Some (pick (fun p => rget x (fst p) (snd p)) (list_prod rs cs) st).
Proof.
  intros Hx. induction rs as [|i rs IH]; intros Hr Hc st; [reflexivity|].
  cbn [fold_opt list_prod]. rewrite (scan_row x r c) by (auto; apply Hr; left; auto). cbn [bind]. rewrite IH by (auto; intros; apply Hr; right; auto).
  rewrite pick_app. reflexivity.
Qed.
Definition best (x : mat) (p row col : nat) : R * (nat * nat) := pick (fun q => rget x (fst q) (snd q)) (window p p row col) (smallest_nonzero, (0%nat, 0%nat)).
Lemma scan_best x R C p row col : fits x (R * p) (C * p) -> (row < R)%nat -> (col < C)%nat -> pool_scan x p p row col = Some (best x p row col).
Proof.
  intros Hx Hr Hc. unfold pool_scan, best, window. rewrite (scan_all x (R * p) (C * p)); auto; intros i Hi; apply in_seq in Hi; nia.
Qed.

(** ** The cells in order *)
Lemma shift_seq b n : forall o, map (fun k => (b + k)%nat) (seq o n) = seq (b + o) n.
Proof. induction n as [|n IH]; intros o; [reflexivity|]. cbn [seq map]. f_equal. rewrite IH. f_equal. lia. Qed.
Lemma prod_seq r c : forall a, list_prod (seq a r) (seq 0 c) = map (fun k => (a + k / c, k mod c)%nat) (seq 0 (r * c)).
Proof.
  induction r as [|r IH]; intros a; [reflexivity|]. cbn [seq list_prod]. rewrite IH. cbn [Nat.mul]. rewrite seq_app, map_app. cbn [Nat.add]. f_equal.
  - apply map_ext_in. intros k Hk. apply in_seq in Hk. rewrite Nat.div_small, Nat.mod_small by lia. f_equal. lia.
  - destruct c as [|c]; [rewrite Nat.mul_0_r; reflexivity|].
    replace (seq (S c) (r * S c)) with (map (fun k => (S c + k)%nat) (seq 0 (r * S c))).
    + rewrite map_map. apply map_ext. intros k.
      replace (S c + k)%nat with (k + 1 * S c)%nat by lia. rewrite Nat.div_add, Nat.mod_add by lia. f_equal. lia.
    + rewrite (shift_seq (S c) _ 0), Nat.add_0_r. reflexivity.
Qed.
Lemma cells_seq r c : cells r c = map (fun k => (k / c, k mod c)%nat) (seq 0 (r * c)).
Proof. unfold cells. rewrite prod_seq. reflexivity. Qed.

Section Square.
Variables (R0 C0 p : nat).
Hypothesis Hp : (p <> 0)%nat.
Let n := (R0 * C0)%nat.
Definition best_k (x : mat) (k : nat) := best x p (k / C0) (k mod C0).

Lemma pool_all_square x : fits x (R0 * p) (C0 * p) -> pool_all p p x = Some (map (best_k x) (seq 0 n)).
Proof.
  intros Hx. unfold pool_all. destruct (Nat.eqb_spec p 0); [lia|]. cbn [orb]. pose proof Hx as (_ & E1 & E2). rewrite E1, E2, !Nat.mod_mul, !Nat.div_mul by auto. cbn [Nat.eqb andb].
  rewrite cells_seq. rewrite (each_map _ (fun rc => best x p (fst rc) (snd rc))).
  - rewrite map_map. reflexivity.
  - intros (i, j) H. apply in_map_iff in H as (k & E & Hk). apply in_seq in Hk. destruct (idx_row R0 C0 k ltac:(lia)). injection E as <- <-. cbn [fst snd].
    apply (scan_best x R0 C0); auto.
Qed.
Lemma pool_out_square x : fits x (R0 * p) (C0 * p) -> exists y, fwd (max_pooling_fn p p) [x] = Some y /\ fits y R0 C0 /\
  forall k, (k < n)%nat -> nth k (data y) 0 = fst (best_k x k).
Proof.
  intros Hx. eexists. split; [|split].
  - cbn [fwd max_pooling_fn un]. unfold pool_out. rewrite pool_all_square by auto. cbn [bind]. pose proof Hx as (_ & E1 & E2). rewrite E1, E2, !Nat.div_mul by auto. reflexivity.
  - apply fits_mk. rewrite !map_length, seq_length. reflexivity.
  - intros k Hk. cbn [data]. rewrite map_map. apply (nth_map_seq (fun k => fst (best_k x k))); auto.
Qed.

(** where the gradient of output k goes *)
Definition sel (x : mat) (k : nat) : nat := (fst (snd (best_k x k)) * (C0 * p) + snd (snd (best_k x k)))%nat.
Definition puts (l : list R) (sl : nat -> nat) (v : nat -> R) (ks : list nat) : list R := fold_left (fun l k => put l (sl k) (v k)) ks l.
Lemma puts_length sl v ks : forall l, length (puts l sl v ks) = length l.
Proof. induction ks as [|k ks IH]; intros l; [reflexivity|]. unfold puts in *. cbn [fold_left]. rewrite IH. apply put_length. Qed.
Lemma puts_other sl v ks q : (forall k, In k ks -> sl k <> q) -> forall l, nth q (puts l sl v ks) 0 = nth q l 0.
Proof.
  induction ks as [|k ks IH]; intros H l; [reflexivity|]. unfold puts in *. cbn [fold_left]. rewrite IH by (intros; apply H; right; auto).
  pose proof (nth_put l (sl k) (v k) q) as E. destruct (Nat.eqb_spec (sl k) q) as [F|F]; [exfalso; apply (H k); [left|]; auto|].
  destruct (Nat.lt_ge_cases q (length l)) as [L|L].
  - rewrite (nth_error_nth' l 0) in E by auto. rewrite (nth_error_nth' _ 0) in E by (rewrite put_length; auto). congruence.
  - rewrite !nth_overflow; rewrite ?put_length; auto.
Qed.
Lemma puts_at sl v ks k : NoDup ks -> In k ks -> (forall i j, In i ks -> In j ks -> sl i = sl j -> i = j) ->
  forall l, (sl k < length l)%nat -> nth (sl k) (puts l sl v ks) 0 = v k.
Proof.
  induction ks as [|a ks IH]; intros Hn Hk Hi l Hl; [destruct Hk|]. inversion Hn as [|? ? N1 N2]; subst.
  unfold puts. cbn [fold_left]. fold (puts (put l (sl a) (v a)) sl v ks). destruct Hk as [->|Hk].
  - rewrite puts_other.
    + pose proof (nth_put l (sl k) (v k) (sl k)) as E. rewrite Nat.eqb_refl in E. destruct (Nat.ltb_spec (sl k) (length l)); [|lia].
      apply (nth_error_nth _ _ 0) in E. exact E.
    + intros j Hj E. apply N1. rewrite (Hi k j); auto; [left|right]; auto.
  - apply IH; auto; [|rewrite put_length; auto]. intros i j H1 H2. apply Hi; right; auto.
Qed.

Lemma sel_in x k : fits x (R0 * p) (C0 * p) -> (k < n)%nat -> (fst (snd (best_k x k)) < R0 * p /\ snd (snd (best_k x k)) < C0 * p)%nat.
Proof.
  intros Hx Hk. destruct (idx_row R0 C0 k Hk) as (H1 & H2).
  destruct (pick_spec (fun q => rget x (fst q) (snd q)) (window p p (k / C0) (k mod C0)) smallest_nonzero (0%nat, 0%nat)) as (_ & _ & [E|(E & _)]).
  - unfold best_k, best. rewrite E. cbn. nia.
  - unfold best_k, best. apply in_window in E. nia.
Qed.
Definition back_mat (x gy : mat) : mat := mkDense (R0 * p) (C0 * p) (puts (repeat 0 (R0 * p * (C0 * p))) (sel x) (fun k => nth k (data gy) 0) (seq 0 n)).
Lemma back_loop x gy : fits x (R0 * p) (C0 * p) -> fits gy R0 C0 -> forall ks, (forall k, In k ks -> (k < n)%nat) -> forall l, length l = (R0 * p * (C0 * p))%nat ->
  fold_opt (fun gx q => do g <- at_ gy [Z.of_nat (fst (fst q)); Z.of_nat (snd (fst q))]; set_ gx g [Z.of_nat (fst (snd q)); Z.of_nat (snd (snd q))])
    (combine (map (fun k => (k / C0, k mod C0)%nat) ks) (map snd (map (best_k x) ks))) (mkDense (R0 * p) (C0 * p) l) =
  Some (mkDense (R0 * p) (C0 * p) (puts l (sel x) (fun k => nth k (data gy) 0) ks)).
Proof.
  intros Hx Hg. induction ks as [|k ks IH]; intros Hk l Hl; [reflexivity|]. cbn [map combine fold_opt fst snd].
  assert (Hk0 : (k < n)%nat) by (apply Hk; left; auto). destruct (idx_row R0 C0 k Hk0) as (H1 & H2).
  rewrite (at2 gy R0 C0) by auto. cbn [bind]. destruct (sel_in x k Hx Hk0) as (S1 & S2).
  rewrite (set2 _ (R0 * p) (C0 * p)) by (auto; apply fits_mk; auto). cbn [bind data]. rewrite IH; [|intros; apply Hk; right; auto|rewrite put_length; auto].
  replace (k / C0 * C0 + k mod C0)%nat with k by (apply (idx_split C0 k); lia). reflexivity.
Qed.
Lemma pool_back_square x gy : fits x (R0 * p) (C0 * p) -> fits gy R0 C0 -> pool_back p p x gy = Some (back_mat x gy).
Proof.
  intros Hx Hg. unfold pool_back. rewrite pool_all_square by auto. cbn [bind]. pose proof Hx as (_ & E1 & E2). rewrite E1, E2, !Nat.div_mul by auto. rewrite cells_seq.
  unfold m_zeros_like, zeros_like, zeros. rewrite E1, E2. apply back_loop; auto.
  - intros k Hk. apply in_seq in Hk. unfold n. lia.
  - apply repeat_length.
Qed.
Lemma back_mat_fits x gy : fits (back_mat x gy) (R0 * p) (C0 * p).
Proof. apply fits_mk. rewrite puts_length, repeat_length. reflexivity. Qed.
Lemma pool_back_ok req x : fits x (R0 * p) (C0 * p) -> back_ok (max_pooling_fn p p) req [x] R0 C0 (fun gy => [back_mat x gy]).
Proof.
  intros Hx gy Hg. cbn [bwd max_pooling_fn un_b]. rewrite pool_back_square by auto. split; [apply when1|]. constructor; [|constructor].
  pose proof Hx as (_ & E1 & E2). rewrite E1, E2. apply back_mat_fits.
Qed.
Lemma pool_shapes req x : fits x (R0 * p) (C0 * p) -> hands_one_each (max_pooling_fn p p) req [x] /\ right_shapes (max_pooling_fn p p) req [x].
Proof.
  intros Hx. destruct (pool_out_square x Hx) as (y & E & Hy & _). eapply (shapes_intro (max_pooling_fn p p) req [x] R0 C0 _ y); eauto. apply pool_back_ok; auto.
Qed.

(** one largest element in the window of (row, col), larger than the start value *)
Definition peak (x : mat) (row col : nat) (q : nat * nat) : Prop :=
  In q (window p p row col) /\ smallest_nonzero < rget x (fst q) (snd q) /\
  forall q', In q' (window p p row col) -> q' <> q -> rget x (fst q') (snd q') < rget x (fst q) (snd q).
Lemma peak_best x row col q : peak x row col q -> best x p row col = (rget x (fst q) (snd q), q).
Proof. intros (H1 & H2 & H3). apply (pick_strict (fun q => rget x (fst q) (snd q)) (window p p row col) smallest_nonzero (0%nat, 0%nat) q H1 H2 H3). Qed.

Lemma locally_list {A} (l : list A) (P : A -> R -> Prop) : (forall a, In a l -> locally 0 (P a)) -> locally 0 (fun t => forall a, In a l -> P a t).
Proof.
  induction l as [|a l IH]; intros H; [apply filter_forall; intros t a []|].
  apply (filter_imp (fun t => P a t /\ forall b, In b l -> P b t)); [intros t (A1 & A2) b [<-|Hb]; auto|].
  apply filter_and; [apply H; left; auto|apply IH; intros; apply H; right; auto].
Qed.

Lemma pool_correct req x at_max : fits x (R0 * p) (C0 * p) -> (forall row col, (row < R0)%nat -> (col < C0)%nat -> peak x row col (at_max row col)) ->
  correct (max_pooling_fn p p) req [x].
Proof.
  intros Hx HP. destruct (pool_out_square x Hx) as (y & E & Hy & _).
  set (am := fun k => at_max (k / C0)%nat (k mod C0)%nat).
  assert (HPk : forall k, (k < n)%nat -> peak x (k / C0) (k mod C0) (am k)) by (intros k Hk; destruct (idx_row R0 C0 k Hk); apply HP; auto).
  set (pos := fun k => (fst (am k) * (C0 * p) + snd (am k))%nat).
  assert (Hin : forall k, (k < n)%nat -> (fst (am k) < R0 * p /\ snd (am k) < C0 * p)%nat).
  { intros k Hk. destruct (idx_row R0 C0 k Hk) as (H1 & H2). destruct (HPk k Hk) as (I & _). apply in_window in I. nia. }
  assert (Hpos : forall k, (k < n)%nat -> (pos k < R0 * p * (C0 * p))%nat) by (intros k Hk; destruct (Hin k Hk); apply idx_lt; auto).
  assert (Hsel : forall k, (k < n)%nat -> sel x k = pos k) by (intros k Hk; unfold sel, best_k; rewrite (peak_best x _ _ _ (HPk k Hk)); reflexivity).
  assert (Hinj : forall i j, (i < n)%nat -> (j < n)%nat -> pos i = pos j -> i = j).
  { intros i j Hi Hj Epos. apply idx_inj in Epos as (E1 & E2); [|apply Hin; auto|apply Hin; auto].
    destruct (HPk i Hi) as (I & _), (HPk j Hj) as (J & _). apply in_window in I, J. rewrite E1, E2 in I.
    assert (C0 <> 0)%nat by (unfold n in *; lia). pose proof (idx_split C0 i ltac:(lia)). pose proof (idx_split C0 j ltac:(lia)).
    assert (i / C0 = j / C0)%nat by nia. assert (i mod C0 = j mod C0)%nat by nia. lia. }
  assert (Hrd : forall a k, fits a (R0 * p) (C0 * p) -> (k < n)%nat -> rget a (fst (am k)) (snd (am k)) = nth (pos k) (data a) 0).
  { intros a k Ha Hk. destruct (Hin k Hk). apply (rget_flat a (R0 * p) (C0 * p)); auto. }
  apply (correct_intro (max_pooling_fn p p) req [x] R0 C0 (fun gy => [back_mat x gy]) y); auto using pool_back_ok.
  intros Xs Vs HM HX _. destruct (one_mover Xs Vs x (R0 * p) (C0 * p) HM HX Hx) as (X & V & -> & -> & HX0 & HXf & HVf & HD).
  exists (fun t i j => nth (pos (i * C0 + j)%nat) (data (X t)) 0), (fun i j => nth (pos (i * C0 + j)%nat) (data V) 0). split; [|split].
  - apply (filter_imp (fun t => forall k, (k < n)%nat -> peak (X t) (k / C0) (k mod C0) (am k))).
    + intros t Ht. destruct (pool_out_square (X t) (HXf t)) as (m & Em & Hm & Hv). exists m. split; [exact Em|].
      apply (flat_elems m R0 C0 (fun k => nth (pos k) (data (X t)) 0)); auto. intros k Hk. rewrite Hv by auto. unfold best_k. rewrite (peak_best _ _ _ _ (Ht k Hk)).
      cbn [fst]. apply Hrd; auto.
    + apply locally_nat. intros k Hk. destruct (HPk k Hk) as (P1 & P2 & P3). destruct (Hin k Hk) as (I1 & I2). destruct (idx_row R0 C0 k Hk) as (K1 & K2).
      apply (filter_imp (fun t => smallest_nonzero < rget (X t) (fst (am k)) (snd (am k)) /\
         forall q, In q (window p p (k / C0) (k mod C0)) -> q <> am k -> rget (X t) (fst q) (snd q) < rget (X t) (fst (am k)) (snd (am k)))).
      { intros t (A1 & A2). repeat split; auto. }
      apply filter_and.
      * apply (locally_curve (fun t => rget (X t) (fst (am k)) (snd (am k))) _ (fun v => smallest_nonzero < v) (HD _ _ I1 I2)). apply open_gt. rewrite HX0. auto.
      * apply locally_list. intros q Hq. pose proof (proj1 (in_window _ _ _ _) Hq) as Hq'.
        assert (Q1 : (fst q < R0 * p)%nat) by nia. assert (Q2 : (snd q < C0 * p)%nat) by nia.
        assert (D : q = am k \/ q <> am k) by (destruct (Nat.eq_dec (fst q) (fst (am k))), (Nat.eq_dec (snd q) (snd (am k))); [left; destruct q, (am k); cbn in *; congruence|right; intros ->; lia..]).
        destruct D as [->|Hne]; [apply filter_forall; intros t F; exfalso; auto|].
        apply (filter_imp (fun t => 0 < rget (X t) (fst (am k)) (snd (am k)) - rget (X t) (fst q) (snd q))); [intros; lra|].
        apply (locally_curve (fun t => rget (X t) (fst (am k)) (snd (am k)) - rget (X t) (fst q) (snd q)) _ (fun v => 0 < v) (d_minus _ _ 0 _ _ (HD _ _ I1 I2) (HD _ _ Q1 Q2))).
        apply (open_gt 0). rewrite HX0. specialize (P3 q Hq Hne). lra.
  - intros i j Hi Hj. apply (flat_derive X V (R0 * p) (C0 * p)); auto. apply Hpos. apply idx_lt; auto.
  - intros gy Hg. rewrite total1. rewrite (inner_flat (back_mat x gy) V (R0 * p) (C0 * p)) by (auto; apply back_mat_fits).
    rewrite (inner2_flat gy R0 C0 (fun k => nth (pos k) (data V) 0)) by auto.
    assert (Hsc : forall q, (q < R0 * p * (C0 * p))%nat -> nth q (data (back_mat x gy)) 0 = Rsum n (fun i => if (pos i =? q)%nat then nth i (data gy) 0 else 0)).
    { apply (scatter _ n pos (fun q => nth q (data (back_mat x gy)) 0) (fun i => nth i (data gy) 0)); auto.
      - intros i Hi. rewrite <- Hsel by auto. unfold back_mat. cbn [data]. apply (puts_at (sel x) (fun k => nth k (data gy) 0)).
        + apply seq_NoDup.
        + apply in_seq. lia.
        + intros a b Ha Hb. apply in_seq in Ha, Hb. rewrite !Hsel by lia. apply Hinj; lia.
        + rewrite repeat_length, Hsel by auto. auto.
      - intros q Hq Hno. unfold back_mat. cbn [data]. rewrite puts_other.
        + apply List.nth_repeat.
        + intros k Hk. apply in_seq in Hk. rewrite Hsel by lia. apply Hno. lia. }
    rewrite (Rsum_ext (R0 * p * (C0 * p)) _ (fun q => Rsum n (fun i => if (pos i =? q)%nat then nth i (data gy) 0 * nth q (data V) 0 else 0))).
    2:{ intros q Hq. rewrite Hsc by auto. rewrite <- Rsum_mult_r. apply Rsum_ext. intros i _. destruct (pos i =? q)%nat; ring. }
    rewrite Rsum_swap. apply Rsum_ext. intros i Hi.
    rewrite (Rsum_ext _ _ (fun q => if (q =? pos i)%nat then nth i (data gy) 0 * nth q (data V) 0 else 0)).
    2:{ intros q _. rewrite (Nat.eqb_sym (pos i) q). reflexivity. }
    symmetry. apply (Rsum_delta _ (pos i) (fun q => nth i (data gy) 0 * nth q (data V) 0)). auto.
Qed.
End Square.
