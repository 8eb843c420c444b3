(** * Proofs about matrix structure: transposition, element access, sub-matrices *)
From Coq Require Import List ZArith Arith Bool Lia.
From Verif Require Import DenseModel DenseSpec DenseLemmas DenseCycles.
Import ListNotations.

Ltac bool_cases := repeat match goal with
  | |- context [?a =? ?b] => destruct (Nat.eqb_spec a b)
  | |- context [?a <? ?b] => destruct (Nat.ltb_spec a b)
  | |- context [?a <=? ?b] => destruct (Nat.leb_spec a b)
  end; cbn [andb orb negb].

(** ** The index map of transposition *)
Lemma from_index_inv r c k : k < r * c -> from_index c r (from_index r c k) = k.
Proof.
  intros H. destruct (idx_row _ _ _ H) as [H1 H2]. unfold from_index. rewrite idx_mod, idx_div by assumption.
  symmetry. apply (idx_split c k). lia.
Qed.
Lemma from_index_range r c k : k < r * c -> from_index r c k < r * c.
Proof. intros H. destruct (idx_row _ _ _ H) as [H1 H2]. unfold from_index. rewrite (Nat.mul_comm r c). now apply idx_lt. Qed.
Lemma from_index_inj r c a b : a < r * c -> b < r * c -> from_index r c a = from_index r c b -> a = b.
Proof. intros Ha Hb E. rewrite <- (from_index_inv r c a Ha), <- (from_index_inv r c b Hb). now rewrite E. Qed.

Section T.
Context {T : Type}.
Implicit Types m : dense T.

(** [l'] is the transpose of the r×c data [l]. *)
Definition transposed (r c : nat) (l l' : list T) : Prop :=
  length l' = c * r /\ forall p, p < c * r -> nth_error l' p = nth_error l (from_index c r p).

Lemma transposed_matrix m l' : wf m -> transposed (rows m) (cols m) (data m) l' ->
  is_matrix (mkDense (cols m) (rows m) l') (cols m) (rows m) (fun i j => elem m j i).
Proof.
  intros Hw [Hl Hp]. repeat split; [exact Hl|]. intros i j Hi Hj.
  rewrite elem_in by assumption. cbn [data cols]. rewrite Hp by now apply idx_lt.
  rewrite elem_in by assumption. unfold from_index. now rewrite idx_mod, idx_div.
Qed.

(** ** T *)
Lemma transpose_loop_spec r c (l : list T) : length l = r * c -> forall vs k out, vs = skipn k l -> length out = c * r ->
  let l' := transpose_loop r (c * r) vs (from_index r c k) out in
  length l' = c * r /\
  forall p, p < c * r -> nth_error l' p = if k <=? from_index c r p then nth_error l (from_index c r p) else nth_error out p.
Proof.
  intros Hl. induction vs as [|v vs IH]; intros k out Hvs Hout; cbn [transpose_loop].
  - split; [assumption|]. intros p Hp. assert (Hk : length l <= k).
    { destruct (le_lt_dec (length l) k); [assumption|]. apply (f_equal (@length T)) in Hvs. rewrite skipn_length in Hvs. cbn in Hvs. lia. }
    pose proof (from_index_range c r p Hp). destruct (Nat.leb_spec k (from_index c r p)); [lia|reflexivity].
  - assert (Hk : k < r * c).
    { destruct (le_lt_dec (length l) k) as [H|H]; [|lia]. rewrite skipn_all2 in Hvs by assumption. discriminate. }
    assert (Hv : nth_error l k = Some v).
    { replace k with (k + 0) by lia. rewrite <- nth_skipn, <- Hvs. reflexivity. }
    assert (Hvs' : vs = skipn (S k) l).
    { replace (S k) with (1 + k) by lia. rewrite <- skipn_skipn, <- Hvs. reflexivity. }
    destruct (idx_row _ _ _ Hk) as [Hr Hc].
    destruct vs as [|w vs'].
    + (* last element *)
      cbn [transpose_loop]. clear IH. split; [now rewrite put_length|]. intros p Hp.
      assert (Hlast : S k = length l).
      { apply (f_equal (@length T)) in Hvs. rewrite skipn_length in Hvs. cbn in Hvs. lia. }
      rewrite nth_put. pose proof (from_index_range c r p Hp). pose proof (from_index_inv c r p Hp) as Ei.
      destruct (Nat.eqb_spec (from_index r c k) p) as [E|E].
      * subst p. rewrite from_index_inv in * by assumption. rewrite Nat.leb_refl.
        destruct (Nat.ltb_spec (from_index r c k) (length out)); [now symmetry|lia].
      * destruct (Nat.leb_spec k (from_index c r p)); [|reflexivity]. exfalso. apply E.
        replace k with (from_index c r p) by lia. assumption.
    + assert (HSk : S k < r * c).
      { destruct (le_lt_dec (length l) (S k)) as [H|H]; [|lia]. rewrite skipn_all2 in Hvs' by assumption. discriminate. }
      assert (Hidx : (if c * r <=? from_index r c k + r then from_index r c k + r - (c * r - 1) else from_index r c k + r) = from_index r c (S k)).
      { unfold from_index. pose proof (proj1 (idx_split c k ltac:(lia))) as Ek. set (i := k / c) in *. set (j := k mod c) in *.
        destruct (Nat.eq_dec (S j) c) as [Hj|Hj].
        - assert (E1 : S k = (S i) * c + 0) by lia. rewrite E1, idx_mod, idx_div by lia.
          destruct (Nat.leb_spec (c * r) (j * r + i + r)); nia.
        - assert (E1 : S k = i * c + S j) by lia. rewrite E1, idx_mod, idx_div by lia.
          destruct (Nat.leb_spec (c * r) (j * r + i + r)); nia. }
      rewrite Hidx. specialize (IH (S k) (put out (from_index r c k) v) Hvs' ltac:(now rewrite put_length)).
      cbn zeta in IH. destruct IH as [IHl IHp]. split; [assumption|]. intros p Hp. rewrite IHp by assumption. rewrite nth_put.
      pose proof (from_index_inv c r p Hp) as Ei. pose proof (from_index_range c r p Hp).
      destruct (Nat.leb_spec (S k) (from_index c r p)), (Nat.leb_spec k (from_index c r p)); try lia; try reflexivity.
      * assert (Ek : from_index c r p = k) by lia. rewrite <- Ek in Hv at 1. rewrite Ek in Ei.
        rewrite Ei, Nat.eqb_refl. destruct (Nat.ltb_spec p (length out)); [rewrite Hv; reflexivity|lia].
      * destruct (Nat.eqb_spec (from_index r c k) p) as [E|E]; [|reflexivity]. subst p.
        rewrite from_index_inv in * by assumption. lia.
Qed.

Lemma vector_index r c p : r = 1 \/ c = 1 -> p < c * r -> from_index c r p = p.
Proof.
  intros [->| ->] H; unfold from_index.
  - rewrite Nat.mod_1_r, Nat.div_1_r. lia.
  - rewrite Nat.mod_small, Nat.div_small by lia. lia.
Qed.

Lemma transpose_transposed zero m : wf m -> transposed (rows m) (cols m) (data m) (data (transpose zero m)).
Proof.
  intros Hw. unfold transpose. destruct (is_vector m) eqn:Hv; cbn [data].
  - rewrite blit_all by (rewrite repeat_length, Hw; lia). split; [rewrite Hw; lia|].
    intros p Hp. rewrite vector_index; [reflexivity| |assumption]. unfold is_vector in Hv.
    apply orb_true_iff in Hv. rewrite !Nat.eqb_eq in Hv. tauto.
  - destruct (transpose_loop_spec (rows m) (cols m) (data m) Hw (data m) 0 (repeat zero (cols m * rows m)) eq_refl (repeat_length _ _)) as [H1 H2].
    assert (E0 : from_index (rows m) (cols m) 0 = 0).
    { unfold from_index. destruct (cols m) as [|c]; [reflexivity|]. rewrite Nat.mod_0_l, Nat.div_0_l by lia. reflexivity. }
    rewrite E0 in H1, H2. split; [assumption|]. exact H2.
Qed.

Lemma transpose_spec zero m : wf m -> is_matrix (transpose zero m) (cols m) (rows m) (fun i j => elem m j i).
Proof.
  intros Hw. pose proof (transposed_matrix m _ Hw (transpose_transposed zero m Hw)) as H.
  replace (transpose zero m) with (mkDense (cols m) (rows m) (data (transpose zero m))); [assumption|].
  unfold transpose. now destruct (is_vector m).
Qed.

(** ** TransposeInPlace *)
Lemma exchange_length (l : list T) k p : length (exchange l k p) = length l.
Proof. unfold exchange. destruct (nth_error l k), (nth_error l p); rewrite ?put_length; reflexivity. Qed.

Lemma nth_exchange (l : list T) k p q : k < length l -> p < length l -> nth_error (exchange l k p) q =
  if q =? k then nth_error l p else if q =? p then nth_error l k else nth_error l q.
Proof.
  intros Hk Hp. unfold exchange. destruct (nth_some l k Hk) as [x Ex], (nth_some l p Hp) as [y Ey]. rewrite Ex, Ey.
  rewrite !nth_put, put_length. bool_cases; subst; try lia; try congruence; auto.
Qed.

Lemma square_inner_spec n i fuel : i < n -> forall j (l : list T), i < j -> j + fuel = n -> length l = n * n ->
  let l' := square_inner n i j fuel l in
  length l' = n * n /\
  forall a b, a < n -> b < n -> nth_error l' (a * n + b) =
    if (a =? i) && (j <=? b) then nth_error l (b * n + i)
    else if (b =? i) && (j <=? a) then nth_error l (i * n + a)
    else nth_error l (a * n + b).
Proof.
  intros Hi. induction fuel as [|fuel IH]; intros j l Hij Hf Hl; cbn [square_inner].
  - split; [assumption|]. intros a b Ha Hb. destruct (Nat.leb_spec j b), (Nat.leb_spec j a); try lia. now rewrite !andb_false_r.
  - destruct (IH (S j) (exchange l (i * n + j) (j * n + i))) as [H1 H2]; [lia|lia|now rewrite exchange_length|].
    split; [assumption|]. intros a b Ha Hb. rewrite H2 by assumption.
    assert (Hx : forall a b, a < n -> b < n -> nth_error (exchange l (i * n + j) (j * n + i)) (a * n + b) =
       if (a =? i) && (b =? j) then nth_error l (j * n + i) else if (a =? j) && (b =? i) then nth_error l (i * n + j) else nth_error l (a * n + b)).
    { clear a b Ha Hb. intros a b Ha Hb. rewrite nth_exchange by (rewrite Hl; apply idx_lt; lia).
      destruct (Nat.eqb_spec (a * n + b) (i * n + j)) as [E|E].
      - apply idx_inj in E; [|lia|lia]. destruct E as [-> ->]. now rewrite !Nat.eqb_refl.
      - destruct (Nat.eqb_spec (a * n + b) (j * n + i)) as [E'|E'].
        + apply idx_inj in E'; [|lia|lia]. destruct E' as [-> ->]. rewrite !Nat.eqb_refl.
          destruct (Nat.eqb_spec j i); [lia|]. reflexivity.
        + destruct (Nat.eqb_spec a i), (Nat.eqb_spec b j), (Nat.eqb_spec a j), (Nat.eqb_spec b i); subst; cbn [andb]; try reflexivity; lia. }
    rewrite !Hx by lia. bool_cases; subst; try lia; reflexivity.
Qed.

Lemma square_outer_spec n fuel : forall i (l : list T), i + fuel = n - 1 -> length l = n * n ->
  let l' := square_outer n i fuel l in
  length l' = n * n /\
  forall a b, a < n -> b < n -> nth_error l' (a * n + b) =
    if (i <=? a) && (i <=? b) then nth_error l (b * n + a) else nth_error l (a * n + b).
Proof.
  induction fuel as [|fuel IH]; intros i l Hf Hl; cbn [square_outer].
  - split; [assumption|]. intros a b Ha Hb. destruct (Nat.leb_spec i a), (Nat.leb_spec i b); cbn [andb]; try reflexivity.
    replace a with b by lia. reflexivity.
  - destruct (square_inner_spec n i (n - S i) ltac:(lia) (S i) l ltac:(lia) ltac:(lia) Hl) as [H1 H2].
    destruct (IH (S i) (square_inner n i (S i) (n - S i) l)) as [H3 H4]; [lia|assumption|].
    split; [assumption|]. intros a b Ha Hb. rewrite H4 by assumption. rewrite !H2 by assumption.
    bool_cases; subst; try lia; try reflexivity; replace a with b by lia; reflexivity.
Qed.

Lemma in_place_transposed m : wf m -> exists l', transpose_in_place m = Some (mkDense (cols m) (rows m) l') /\
  transposed (rows m) (cols m) (data m) l'.
Proof.
  intros Hw. unfold transpose_in_place.
  destruct (((cols m =? 1) || (rows m =? 1)) || (length (data m) <=? 1)) eqn:E.
  - exists (data m). split; [reflexivity|]. split; [rewrite Hw; lia|]. intros p Hp. apply orb_true_iff in E. destruct E as [E|E].
    + rewrite vector_index; [reflexivity| |assumption]. apply orb_true_iff in E. rewrite !Nat.eqb_eq in E. tauto.
    + apply Nat.leb_le in E. rewrite Hw in E. pose proof (from_index_range (cols m) (rows m) p Hp).
      replace (from_index (cols m) (rows m) p) with p by lia. reflexivity.
  - apply orb_false_iff in E. destruct E as [E1 E2]. apply Nat.leb_gt in E2.
    destruct (Nat.eqb_spec (cols m) (rows m)) as [Eq|Ne].
    + eexists. split; [reflexivity|]. 
      destruct (square_outer_spec (cols m) (cols m - 1) 0 (data m)) as [H1 H2]; [lia|rewrite Hw, Eq; reflexivity|].
      split; [now rewrite H1, Eq|]. intros p Hp. destruct (idx_row _ _ _ Hp) as [Ha Hb].
      pose proof (proj1 (idx_split (rows m) p ltac:(lia))) as Ep.
      rewrite Ep at 1. rewrite <- Eq at 2. rewrite H2 by lia. cbn [Nat.leb andb]. unfold from_index. now rewrite Eq.
    + assert (Hs : length (data m) = cols m * rows m) by (rewrite Hw; lia).
      destruct (cycles_correct (length (data m)) (from_index (cols m) (rows m))) with (old := data m) as (l' & El & Hl & Hp).
      * rewrite Hs. apply from_index_range.
      * rewrite Hs. apply from_index_inj.
      * unfold from_index. rewrite Nat.mod_0_l, Nat.div_0_l by lia. reflexivity.
      * reflexivity.
      * lia.
      * rewrite El. eexists. split; [reflexivity|]. split; [lia|]. rewrite <- Hs. exact Hp.
Qed.

Lemma transpose_in_place_spec zero m : wf m -> transpose_in_place m = Some (transpose zero m).
Proof.
  intros Hw. destruct (in_place_transposed m Hw) as (l' & E & Ht). rewrite E. f_equal.
  eapply is_matrix_unique; [apply transposed_matrix; eassumption|]. now apply transpose_spec.
Qed.

Lemma transpose_involutive zero m : wf m -> transpose zero (transpose zero m) = m.
Proof.
  intros Hw. destruct (transpose_spec zero m Hw) as (R & C & W & E).
  destruct (transpose_spec zero (transpose zero m) W) as (R2 & C2 & W2 & E2).
  rewrite R, C in *. apply dense_ext; auto; try congruence.
  intros i j Hi Hj. rewrite R2 in Hi. rewrite C2 in Hj. rewrite E2, E; auto.
Qed.

(** ** Element access *)
Lemma offset_two m r c : offset m [r; c] =
  (if (0 <=? r)%Z && (r <? Z.of_nat (rows m))%Z && ((0 <=? c)%Z && (c <? Z.of_nat (cols m))%Z)
   then Some (Z.to_nat r * cols m + Z.to_nat c) else None).
Proof.
  cbn [offset]. destruct (Z.ltb_spec r 0), (Z.leb_spec 0 r), (Z.leb_spec (Z.of_nat (rows m)) r), (Z.ltb_spec r (Z.of_nat (rows m))); cbn [orb andb]; try lia; try reflexivity.
  destruct (Z.ltb_spec c 0), (Z.leb_spec 0 c), (Z.leb_spec (Z.of_nat (cols m)) c), (Z.ltb_spec c (Z.of_nat (cols m))); cbn [orb andb]; try lia; reflexivity.
Qed.

Lemma at_two m r c : at_ m [r; c] = if ((0 <=? r) && (0 <=? c))%Z then elem m (Z.to_nat r) (Z.to_nat c) else None.
Proof.
  unfold at_. rewrite offset_two. unfold elem.
  destruct (Z.leb_spec 0 r), (Z.leb_spec 0 c), (Z.ltb_spec r (Z.of_nat (rows m))), (Z.ltb_spec c (Z.of_nat (cols m))),
    (Nat.ltb_spec (Z.to_nat r) (rows m)), (Nat.ltb_spec (Z.to_nat c) (cols m)); cbn [andb]; try lia; reflexivity.
Qed.

Lemma offset_one m i : wf m -> offset m [i] =
  (if is_vector m && ((0 <=? i)%Z && (i <? Z.of_nat (rows m * cols m))%Z) then Some (Z.to_nat i) else None).
Proof.
  intros Hw. cbn [offset]. unfold is_vector. rewrite Hw.
  destruct (rows m =? 1), (cols m =? 1); cbn [orb andb negb]; try reflexivity;
  destruct (Z.ltb_spec i 0), (Z.leb_spec 0 i), (Z.leb_spec (Z.of_nat (rows m * cols m)) i), (Z.ltb_spec i (Z.of_nat (rows m * cols m))); cbn [orb andb]; try lia; reflexivity.
Qed.

(** Panics exactly when the offset is undefined. *)
Lemma at_set_defined m idx v : wf m -> (at_ m idx = None <-> offset m idx = None) /\ (set_ m v idx = None <-> offset m idx = None).
Proof.
  intros Hw.
  assert (G : forall k, offset m idx = Some k -> k < length (data m)).
  { intros k. destruct idx as [|i [|j [|? ?]]]; cbn [offset]; try discriminate.
    - destruct (negb (rows m =? 1) && negb (cols m =? 1)); [discriminate|].
      destruct (Z.ltb_spec i 0), (Z.leb_spec (Z.of_nat (length (data m))) i); cbn [orb]; try discriminate. intros E. injection E as <-. lia.
    - destruct (Z.ltb_spec i 0), (Z.leb_spec (Z.of_nat (rows m)) i); cbn [orb]; try discriminate.
      destruct (Z.ltb_spec j 0), (Z.leb_spec (Z.of_nat (cols m)) j); cbn [orb]; try discriminate.
      intros E. injection E as <-. rewrite Hw. apply idx_lt; lia. }
  unfold at_, set_. destruct (offset m idx) as [k|] eqn:E; [|tauto].
  specialize (G k eq_refl). destruct (nth_some _ _ G) as [x Hx]. rewrite Hx.
  destruct (Nat.ltb_spec k (length (data m))); [|lia]. split; split; congruence.
Qed.

Lemma set_two m v r c : wf m -> (0 <= r < Z.of_nat (rows m))%Z -> (0 <= c < Z.of_nat (cols m))%Z ->
  exists m', set_ m v [r; c] = Some m' /\ is_matrix m' (rows m) (cols m)
    (fun i j => if (i =? Z.to_nat r) && (j =? Z.to_nat c) then Some v else elem m i j).
Proof.
  intros Hw Hr Hc. unfold set_. rewrite offset_two.
  destruct (Z.leb_spec 0 r), (Z.leb_spec 0 c), (Z.ltb_spec r (Z.of_nat (rows m))), (Z.ltb_spec c (Z.of_nat (cols m))); try lia. cbn [andb].
  assert (Hk : Z.to_nat r * cols m + Z.to_nat c < length (data m)) by (rewrite Hw; apply idx_lt; lia).
  destruct (Nat.ltb_spec (Z.to_nat r * cols m + Z.to_nat c) (length (data m))); [|lia].
  eexists. split; [reflexivity|]. repeat split; [unfold wf; cbn; now rewrite put_length|].
  intros i j Hi Hj. rewrite !elem_in by assumption. cbn [data cols]. rewrite nth_put.
  destruct (Nat.eqb_spec (Z.to_nat r * cols m + Z.to_nat c) (i * cols m + j)) as [E|E].
  - apply idx_inj in E; [|lia|lia]. destruct E as [<- <-]. rewrite !Nat.eqb_refl. cbn [andb].
    destruct (Nat.ltb_spec (Z.to_nat r * cols m + Z.to_nat c) (length (data m))); [reflexivity|lia].
  - destruct (Nat.eqb_spec i (Z.to_nat r)), (Nat.eqb_spec j (Z.to_nat c)); subst; cbn [andb]; try reflexivity. lia.
Qed.

(** ** Rows, columns, sub-matrices *)
Lemma extract_row_spec m i : wf m -> (0 <= i < Z.of_nat (rows m))%Z ->
  exists m', extract_row m i = Some m' /\ is_matrix m' 1 (cols m) (fun _ j => elem m (Z.to_nat i) j).
Proof.
  intros Hw Hi. unfold extract_row. destruct (Z.ltb_spec i 0), (Z.leb_spec (Z.of_nat (rows m)) i); try lia. cbn [orb].
  eexists. split; [reflexivity|].
  assert (Hb : Z.to_nat i * cols m + cols m <= length (data m)) by (rewrite Hw; nia).
  repeat split; [unfold wf; cbn; rewrite slice_length by lia; lia|].
  intros r j Hr Hj. rewrite !elem_in by (cbn; lia). cbn [data cols]. rewrite nth_slice.
  destruct (Nat.ltb_spec (r * cols m + j) (Z.to_nat i * cols m + cols m - Z.to_nat i * cols m)); [|lia]. f_equal. lia.
Qed.

Lemma extract_column_spec zero m i : wf m -> (0 <= i < Z.of_nat (cols m))%Z ->
  exists m', extract_column zero m i = Some m' /\ is_matrix m' (rows m) 1 (fun r _ => elem m r (Z.to_nat i)).
Proof.
  intros Hw Hi. unfold extract_column. destruct (Z.ltb_spec i 0), (Z.leb_spec (Z.of_nat (cols m)) i); try lia. cbn [orb].
  eexists. split; [reflexivity|]. repeat split; [unfold wf; cbn; rewrite map_length, seq_length; lia|].
  intros r j Hr Hj. rewrite !elem_in by (cbn; lia). cbn [data cols]. rewrite nth_map, nth_seq.
  destruct (Nat.ltb_spec (r * 1 + j) (rows m)); [|lia]. cbn [option_map].
  rewrite (nth_error_nth' (data m) zero) by (rewrite Hw; apply idx_lt; lia). f_equal. f_equal. f_equal; lia.
Qed.

Lemma extract_panics zero m i : (extract_row m i = None <-> ~ (0 <= i < Z.of_nat (rows m))%Z) /\
  (extract_column zero m i = None <-> ~ (0 <= i < Z.of_nat (cols m))%Z).
Proof.
  unfold extract_row, extract_column. split;
  [destruct (Z.ltb_spec i 0), (Z.leb_spec (Z.of_nat (rows m)) i)|destruct (Z.ltb_spec i 0), (Z.leb_spec (Z.of_nat (cols m)) i)];
  cbn [orb]; split; intros; try reflexivity; try lia; try congruence.
Qed.

Definition slice_ok (m : dense T) (fr fc tr tc : Z) : Prop :=
  (0 <= fr < Z.of_nat (rows m) /\ 0 <= fc < Z.of_nat (cols m) /\ fr <= tr <= Z.of_nat (rows m) /\ fc <= tc <= Z.of_nat (cols m))%Z.

Lemma slice_bad_spec m fr fc tr tc : slice_bad m fr fc tr tc = false <-> slice_ok m fr fc tr tc.
Proof.
  unfold slice_bad, slice_ok. rewrite !orb_false_iff, !Z.ltb_ge, !Z.leb_gt. lia.
Qed.

Lemma fold_append {A B} (f : A -> list B) l acc : fold_left (fun acc x => acc ++ f x) l acc = acc ++ flat_map f l.
Proof. revert acc. induction l as [|x l IH]; intros acc; cbn; [now rewrite app_nil_r|]. now rewrite IH, app_assoc. Qed.

Lemma nth_flat_map_const {A B} (f : A -> list B) c l k : (forall x, In x l -> length (f x) = c) -> 0 < c ->
  nth_error (flat_map f l) k = match nth_error l (k / c) with Some x => nth_error (f x) (k mod c) | None => None end.
Proof.
  intros Hf Hc. revert k. induction l as [|x l IH]; intros k; cbn [flat_map].
  - destruct (k / c); now destruct k.
  - assert (Hx : length (f x) = c) by (apply Hf; now left). rewrite nth_app, Hx.
    destruct (Nat.ltb_spec k c) as [H|H].
    + rewrite Nat.div_small, Nat.mod_small by assumption. reflexivity.
    + rewrite IH by (intros y Hy; apply Hf; now right).
      assert (D : k / c = S ((k - c) / c)) by (replace k with ((k - c) + 1 * c) at 1 by lia; rewrite Nat.div_add by lia; lia).
      assert (M : k mod c = (k - c) mod c) by (replace k with ((k - c) + 1 * c) at 1 by lia; now rewrite Nat.mod_add by lia).
      rewrite D, M. reflexivity.
Qed.

Lemma flat_map_length_const {A B} (f : A -> list B) c l : (forall x, In x l -> length (f x) = c) -> length (flat_map f l) = length l * c.
Proof.
  induction l as [|x l IH]; intros H; [reflexivity|]. cbn. rewrite app_length, H, IH; [reflexivity| |now left].
  intros y Hy. apply H. now right.
Qed.

Definition submatrix_nat m (fr fc tr tc : nat) : dense T :=
  if (fc =? 0) && (tc =? cols m) then mkDense (tr - fr) (tc - fc) (slice (data m) (fr * cols m) (tr * cols m))
  else mkDense (tr - fr) (tc - fc)
        (fold_left (fun acc r => acc ++ slice (data m) (r * cols m + fc) (r * cols m + tc)) (seq fr (tr - fr)) []).

Lemma submatrix_nat_spec m fr fc tr tc : wf m -> fr < rows m -> fc < cols m -> fr <= tr <= rows m -> fc <= tc <= cols m ->
  is_matrix (submatrix_nat m fr fc tr tc) (tr - fr) (tc - fc) (fun i j => elem m (fr + i) (fc + j)).
Proof.
  intros Hw B1 B2 B3 B4. unfold submatrix_nat.
  destruct ((fc =? 0) && (tc =? cols m)) eqn:E.
  - apply andb_true_iff in E. rewrite !Nat.eqb_eq in E. destruct E as [-> ->]. rewrite Nat.sub_0_r.
    repeat split; [unfold wf; cbn [data rows cols]; rewrite slice_length by (rewrite ?Hw; nia); rewrite Nat.mul_sub_distr_r; lia|].
    intros i j Hi Hj. rewrite !elem_in by (cbn; lia). cbn [data cols]. rewrite nth_slice.
    assert (i * cols m + j < (tr - fr) * cols m) by (apply idx_lt; lia). rewrite Nat.mul_sub_distr_r in H.
    destruct (Nat.ltb_spec (i * cols m + j) (tr * cols m - fr * cols m)); [|lia]. f_equal. lia.
  - rewrite fold_append. cbn [app].
    assert (Hlen : forall x, In x (seq fr (tr - fr)) -> length (slice (data m) (x * cols m + fc) (x * cols m + tc)) = tc - fc)
      by (intros x Hx; apply in_seq in Hx; rewrite slice_length by (rewrite ?Hw; nia); lia).
    repeat split; [unfold wf; cbn [data rows cols]; rewrite (flat_map_length_const _ (tc - fc)) by assumption; now rewrite seq_length|].
    intros i j Hi Hj. rewrite !elem_in by (cbn; lia). cbn [data cols].
    rewrite (nth_flat_map_const _ (tc - fc)) by (assumption || lia).
    rewrite idx_div, idx_mod by assumption. rewrite nth_seq.
    destruct (Nat.ltb_spec i (tr - fr)); [|lia].
    rewrite nth_slice. destruct (Nat.ltb_spec j ((fr + i) * cols m + tc - ((fr + i) * cols m + fc))); [|lia].
    f_equal. lia.
Qed.

Lemma submatrix_spec m fr fc tr tc : wf m -> slice_ok m fr fc tr tc ->
  exists m', submatrix m fr fc tr tc = Some m' /\
    is_matrix m' (Z.to_nat (tr - fr)) (Z.to_nat (tc - fc)) (fun i j => elem m (Z.to_nat fr + i) (Z.to_nat fc + j)).
Proof.
  intros Hw Hok. pose proof (proj2 (slice_bad_spec m fr fc tr tc) Hok) as Hb. 
  destruct Hok as (H1 & H2 & H3 & H4).
  exists (submatrix_nat m (Z.to_nat fr) (Z.to_nat fc) (Z.to_nat tr) (Z.to_nat tc)). split.
  - unfold submatrix, submatrix_nat. rewrite Hb. now destruct ((Z.to_nat fc =? 0) && (Z.to_nat tc =? cols m)).
  - rewrite !Z2Nat.inj_sub by lia. apply submatrix_nat_spec; try assumption; lia.
Qed.

Lemma submatrix_panics m fr fc tr tc : submatrix m fr fc tr tc = None <-> ~ slice_ok m fr fc tr tc.
Proof.
  rewrite <- slice_bad_spec. unfold submatrix. destruct (slice_bad m fr fc tr tc).
  - split; [congruence|reflexivity].
  - split; [|congruence]. destruct ((Z.to_nat fc =? 0) && (Z.to_nat tc =? cols m)); discriminate.
Qed.
End T.
