(** * The kernels of Exp32 and Log32 apply one function in each lane *)
From Coq Require Import ZArith String Bool Lia List.
From Verif Require Import AsmModel AsmCode AsmCalls AsmSpec AsmLemmas FloatModel NumModel AsmWords AsmWordsSpec.
Import ListNotations.

Notation W := words.
Notation vec := (AsmModel.vec W).
Notation mem := (AsmModel.mem W).
Notation gpr := (AsmModel.gpr W).
Definition known (D : list nat) (r : nat) : bool := existsb (Nat.eqb r) D.
Definition known_operand (D : list nat) (o : operand) : bool := match o with Reg r => known D r | Sym _ => true | AsmModel.Mem _ _ => false end.
Definition size_eqb (s t : size) : bool := match s, t with X, X | Y, Y => true | _, _ => false end.
(** operations on registers that hold something, of one size, up to a store and the return *)
Fixpoint straight (s : size) (D : list nat) (is : list instr) : bool :=
  match is with
  | Move t _ o dst :: is => size_eqb s t && known_operand D o && straight s (dst :: D) is
  | Bin _ t _ o src dst :: is => size_eqb s t && known_operand D o && known D src && straight s (dst :: D) is
  | Un _ t _ src dst :: is => size_eqb s t && known D src && straight s (dst :: D) is
  | Clear t vex dst :: is => (size_eqb s t || vex) && straight s (dst :: D) is
  | [Store t src CX 0%Z; Ret] => size_eqb s t && known D src
  | _ => false
  end.

Section Straight.
Variable s : size.
Variable F : frame W.
Notation n := (lanes_of 4 s).
Definition holds (D : list nat) (regs : list (nat -> Z)) (st : state W) : Prop :=
  forall r, known D r = true -> firstn n (vec st r) = map (fun rs => rs r) regs.
Lemma size_eq t : size_eqb s t = true -> t = s. Proof. now destruct s, t. Qed.
Lemma firstn_extend st vex dst (v : list Z) : length v = n -> firstn n (extend W 4 st vex dst v) = v.
Proof. intros L. unfold extend. change (lane W) with Z. rewrite firstn_app, <- L, Nat.sub_diag, firstn_all. cbn. apply app_nil_r. Qed.
Lemma map2_map (f : Z -> Z -> Z) (g h : (nat -> Z) -> Z) regs : map2 W f (map g regs) (map h regs) = map (fun rs => f (g rs) (h rs)) regs.
Proof. induction regs; cbn; f_equal; auto. Qed.
Lemma value_ok D regs st o al : holds D regs st -> length regs = n -> known_operand D o = true -> value W 4 st o n al = Some (map (fun rs => operand_lane rs o) regs).
Proof.
  intros H L K. destruct o as [r|b d|b]; cbn [value operand_lane known_operand] in *; [|discriminate|].
  - f_equal. now apply H.
  - f_equal. rewrite <- L. clear. change (imm W b) with b. induction regs; cbn; f_equal; auto.
Qed.
Lemma holds_set D regs st dst v g : holds D regs st -> length regs = n -> firstn n v = map g regs ->
  holds (dst :: D) (map (fun rs => set_reg rs dst (g rs)) regs) (set_vec W st dst v).
Proof.
  intros H L E r K. cbn [known existsb] in K. cbn [set_vec AsmModel.vec]. rewrite map_map. unfold set_reg. destruct (Nat.eqb r dst) eqn:Er; [exact E|].
  apply H. exact K.
Qed.
Lemma straight_ok is : forall D regs st m', straight s D is = true -> holds D regs st -> length regs = n ->
  write W 4 (mem st) (gpr st CX) (map (lane_run is) regs) = Some m' ->
  exists st', block W 4 4 F is st = Some (st', Return) /\ mem st' = m'.
Proof.
  induction is as [|i is IH]; intros D regs st m' S H L Wr; [discriminate|].
  destruct i; cbn [straight] in S; try discriminate.
  - (* Store *)
    destruct b; try discriminate. destruct disp; try discriminate. destruct is as [|[] [|? ?]]; try discriminate.
    apply andb_true_iff in S. destruct S as (S1 & S2). apply size_eq in S1. subst s0.
    cbn [block step]. rewrite Z.add_0_r, (H src S2).
    cbn [lane_run] in Wr. rewrite Wr. eexists. split; reflexivity.
  - (* Move *)
    rewrite !andb_true_iff in S. destruct S as ((S1 & S2) & S3). apply size_eq in S1. subst s0.
    cbn [block step]. rewrite (value_ok D regs st o _ H L S2). cbn [lane_run] in Wr.
    eapply IH; [exact S3| | |].
    + apply holds_set; [exact H|exact L|]. apply firstn_extend. now rewrite map_length.
    + now rewrite map_length.
    + rewrite map_map. exact Wr.
  - (* Bin *)
    rewrite !andb_true_iff in S. destruct S as (((S1 & S2) & S2') & S3). apply size_eq in S1. subst s0.
    cbn [block step]. rewrite (value_ok D regs st o _ H L S2), (H src S2'), map2_map. cbn [lane_run] in Wr.
    eapply IH; [exact S3| | |].
    + apply holds_set; [exact H|exact L|]. apply firstn_extend. now rewrite map_length.
    + now rewrite map_length.
    + rewrite map_map. exact Wr.
  - (* Un *)
    rewrite !andb_true_iff in S. destruct S as ((S1 & S2) & S3). apply size_eq in S1. subst s0.
    cbn [block step]. rewrite (H src S2), map_map. cbn [lane_run] in Wr.
    eapply IH; [exact S3| | |].
    + apply holds_set; [exact H|exact L|]. apply firstn_extend. now rewrite map_length.
    + now rewrite map_length.
    + rewrite map_map. exact Wr.
  - (* Clear *)
    rewrite !andb_true_iff in S. destruct S as (S1 & S3).
    cbn [block step]. cbn [lane_run] in Wr.
    eapply IH; [exact S3| | |].
    + apply holds_set with (g := fun _ => 0%Z); [exact H|exact L|].
      assert (E : map (fun _ : nat -> Z => 0%Z) regs = repeat 0%Z n) by (rewrite <- L; clear; induction regs; cbn; f_equal; auto). rewrite E.
      apply orb_true_iff in S1. destruct S1 as [S1 | ->].
      * apply size_eq in S1. subst s0. apply firstn_extend. apply repeat_length.
      * unfold extend. change (zero W) with 0%Z. rewrite repeat_length, <- repeat_app. destruct s, s0; reflexivity.
    + now rewrite map_length.
    + rewrite map_map. exact Wr.
Qed.
End Straight.

(** a kernel: two arguments, a load, a straight line *)
Definition kernel_of (s : size) (vex : bool) (is : list instr) : code := [("entry"%string, Arg "x_base" AX :: Arg "y_base" CX :: Load s vex AX 0%Z 0 :: is)].
Definition body (c : code) : list instr := match c with (_, is) :: _ => skipn 3 is | [] => [] end.
Lemma exp_avx32_shape : exp_avx32 = kernel_of Y true (body exp_avx32). Proof. reflexivity. Qed.
Lemma exp_sse32_shape : exp_sse32 = kernel_of X false (body exp_sse32). Proof. reflexivity. Qed.
Lemma log_avx32_shape : log_avx32 = kernel_of Y true (body log_avx32). Proof. reflexivity. Qed.
Lemma log_sse32_shape : log_sse32 = kernel_of X false (body log_sse32). Proof. reflexivity. Qed.
Lemma slice_reads m a (l : list Z) : slice W 4 m a l -> read W 4 m a (length l) = Some l.
Proof.
  intros H. apply (read_intro W). intros i Hi. apply nth_error_Some in Hi. specialize (H i). change (lane W) with Z in *. destruct (nth_error l i) eqn:E; [|congruence]. now apply H.
Qed.
Lemma kernel_ok s vex is : straight s [0] is = true -> forall x y st l ly, length l = lanes_of 4 s -> length ly = length l ->
  slice W 4 (mem st) x l -> slice W 4 (mem st) y ly ->
  exists st', returns W 4 4 (call_frame x y) (kernel_of s vex is) st st' /\ slice W 4 (mem st') y (map (lane_function (kernel_of s vex is)) l) /\
    (forall p, ~ within 4 y (length l) p -> mem st' p = mem st p).
Proof.
  intros K x y st l ly L Ly Sx Sy.
  assert (Cy : AsmLemmas.cells W 4 (mem st) y (length l)) by (rewrite <- Ly; eapply read_cells; apply slice_reads; exact Sy).
  destruct (write_some W 4 (mem st) y (map (lane_function (kernel_of s vex is)) l)) as (m' & Wm); [now rewrite map_length|].
  set (st1 := set_vec W (set_gpr W (set_gpr W st AX x) CX y) 0 (extend W 4 (set_gpr W (set_gpr W st AX x) CX y) vex 0 l)).
  destruct (straight_ok s (call_frame x y) is [0] (map (fun w _ => w) l) st1 m') as (st' & B & M); auto.
  - intros r Kr. cbn in Kr. rewrite orb_false_r in Kr. apply Nat.eqb_eq in Kr. subst r. unfold st1. cbn [set_vec AsmModel.vec Nat.eqb].
    rewrite firstn_extend by exact L. rewrite map_map, map_id. reflexivity.
  - now rewrite map_length.
  - unfold st1. cbn [set_vec AsmModel.gpr AsmModel.mem set_gpr greg_eqb]. rewrite map_map. exact Wm.
  - exists st'. subst m'. split; [|split].
    + exists 1. unfold kernel_of at 2. cbn [run].
      erewrite block_cons by reflexivity. erewrite block_cons by reflexivity. erewrite (block_cons _ _ _ _ (Load _ _ _ _ _)).
      2: { cbn [step]. replace (read W 4 _ _ _) with (Some l); [reflexivity|]. symmetry. etransitivity; [|exact (slice_reads _ _ _ Sx)]. rewrite <- L.
           f_equal. cbn [set_gpr AsmModel.gpr greg_eqb]. change (iarg W (call_frame x y) "x_base") with x. apply Z.add_0_r. }
      change (match block W 4 4 (call_frame x y) is st1 with
        | Some (st0, Seq) => run W 4 4 (call_frame x y) 0 (kernel_of s vex is) [] st0
        | Some (st0, Goto l0) => match from_label (kernel_of s vex is) l0 with Some c => run W 4 4 (call_frame x y) 0 (kernel_of s vex is) c st0 | None => None end
        | Some (st0, Return) => Some (Some st0) | None => None end = Some (Some st')). now rewrite B.
    + intros i w E. etransitivity; [apply (write_get W 4 ltac:(lia) _ _ _ _ i Wm)|exact E]. apply nth_error_Some. intros N. cbn [lane words] in *. congruence.
    + intros p Hp. apply (write_frame W 4 _ _ _ _ p Wm). rewrite map_length. intros i Hi E. apply Hp. exists i. auto.
Qed.

Local Open Scope nat_scope.
(** a function has at most one result *)
Lemma returns_unique (A : lanes) e h F c st a b : returns A e h F c st a -> returns A e h F c st b -> a = b.
Proof.
  intros (f1 & H1) (f2 & H2). revert H1 H2. generalize c at 2 4. intros c'. revert c' st f2. induction f1 as [|f1 IH]; intros c' st [|f2] H1 H2; try discriminate; cbn [run] in H1, H2.
  destruct c' as [|(k, is) c']; [discriminate|]. destruct (block A e h F is st) as [(st1, [|l|])|]; [| | |discriminate].
  - eapply IH; eassumption.
  - destruct (from_label c l); [|discriminate]. eapply IH; eassumption.
  - congruence.
Qed.
(** ** The loops around the kernels *)
Section Loops.
Variables (x y : Z) (l : list Z) (m0 : Z -> option Z).
Notation n := (length l).
(** y holds g i x[i] for the positions before i; x is as it was from i on *)
Definition progress (g : nat -> Z -> Z) (i : nat) (m : Z -> option Z) : Prop :=
  (forall j a, nth_error l j = Some a -> j < i -> m (y + 4 * Z.of_nat j)%Z = Some (g j a)) /\
  (forall j a, nth_error l j = Some a -> i <= j -> m (x + 4 * Z.of_nat j)%Z = Some a) /\
  (forall j, j < n -> m (y + 4 * Z.of_nat j)%Z <> None) /\
  (forall p, ~ within 4 y n p -> m p = m0 p).
Hypothesis apart : same_or_apart 4 x y n.
Lemma progress_start g : slice W 4 m0 x l -> (forall j, j < n -> m0 (y + 4 * Z.of_nat j)%Z <> None) -> progress g 0 m0.
Proof. intros H C. split; [|split; [|split]]; [intros; lia|intros j a E _; now apply H|exact C|reflexivity]. Qed.
(** some positions from i on are written, at once *)
Lemma progress_next g i k m m' : progress g i m -> i + k <= n ->
  (forall j a, nth_error l j = Some a -> i <= j < i + k -> m' (y + 4 * Z.of_nat j)%Z = Some (g j a)) ->
  (forall p, ~ within 4 (y + 4 * Z.of_nat i) k p -> m' p = m p) -> progress g (i + k) m'.
Proof.
  intros (H1 & H2 & H3 & H4) Hk Hn Ho. split; [|split; [|split]].
  - intros j a E Hj. destruct (Nat.lt_ge_cases j i) as [Q|Q]; [|apply Hn; auto; lia].
    rewrite Ho; [now apply H1|]. intros (q & Hq & E'). lia.
  - intros j a E Hj. assert (j < n) by (apply nth_error_Some; congruence). rewrite Ho; [apply H2; auto; lia|].
    intros (q & Hq & E'). assert (j = i + q) by (apply apart; lia). lia.
  - intros j Hj. destruct (Nat.lt_ge_cases j i) as [Q|Q]; [|destruct (Nat.lt_ge_cases j (i + k)) as [Q'|Q']].
    + rewrite Ho; [now apply H3|]. intros (q & Hq & E'). lia.
    + destruct (nth_error l j) as [a|] eqn:E; [|apply nth_error_None in E; lia]. rewrite (Hn j a E) by lia. discriminate.
    + rewrite Ho; [now apply H3|]. intros (q & Hq & E'). lia.
  - intros p Hp. rewrite Ho; [now apply H4|]. intros (q & Hq & E'). apply Hp. exists (i + q). split; [lia|lia].
Qed.
Lemma scalar_loop_ok f g k : forall i m, progress g i m -> i + k <= n -> (forall j a, i <= j < i + k -> g j a = scalar f a) ->
  exists m', scalar_loop f x y i k m = Some m' /\ progress g (i + k) m'.
Proof.
  induction k as [|k IH]; intros i m P Hk Hg; cbn [scalar_loop]; [rewrite Nat.add_0_r; eauto|].
  pose proof P as (_ & H2 & H3 & _). destruct (nth_error l i) as [a|] eqn:E; [|apply nth_error_None in E; lia].
  rewrite (H2 i a E) by lia. specialize (H3 i). destruct (m (y + 4 * Z.of_nat i)%Z); [|exfalso; apply H3; [lia|reflexivity]].
  replace (i + S k) with (S i + k) by lia. apply IH; [|lia|intros; apply Hg; lia].
  replace (S i) with (i + 1) by lia. apply (progress_next g i 1 m); [exact P|lia| |].
  - intros j b Eb Hj. assert (j = i) by lia. subst j. unfold AsmWords.set. rewrite Z.eqb_refl. rewrite E in Eb. injection Eb as <-. rewrite Hg by lia. reflexivity.
  - intros p Hp. unfold AsmWords.set. destruct (Z.eqb_spec p (y + 4 * Z.of_nat i)) as [->|]; [|reflexivity]. exfalso. apply Hp. exists 0. split; [lia|]. lia.
Qed.
Definition any_state (m : Z -> option Z) : state W := mkState W (fun _ => 0%Z) (fun _ => []) m false false None.
Lemma vector_step s vex is g : straight s [0] is = true -> let c := kernel_of s vex is in let w := lanes_of 4 s in
  forall i st, progress g i (mem st) -> i + w <= n -> (forall j a, i <= j < i + w -> g j a = lane_function c a) ->
  exists st', returns W 4 4 (call_frame (x + 4 * Z.of_nat i) (y + 4 * Z.of_nat i)) c st st' /\ progress g (i + w) (mem st').
Proof.
  intros K c w i st P Hk Hg. set (m := mem st) in *. pose proof P as (_ & H2 & H3 & _).
  assert (exists ly, length ly = w /\ slice W 4 m (y + 4 * Z.of_nat i) ly) as (ly & Lly & Sly).
  { exists (map (fun q => match m (y + 4 * Z.of_nat (i + q))%Z with Some v => v | None => 0%Z end) (seq 0 w)). split; [now rewrite map_length, seq_length|].
    intros q v E. rewrite nth_error_map in E. destruct (nth_error (seq 0 w) q) as [q'|] eqn:Eq; [|discriminate].
    assert (q < w) by (rewrite <- (seq_length w 0); apply nth_error_Some; congruence).
    assert (q' = q) by (apply nth_error_nth with (d := 0) in Eq; rewrite seq_nth in Eq by lia; lia). subst q'. cbn [option_map] in E.
    replace (y + 4 * Z.of_nat i + 4 * Z.of_nat q)%Z with (y + 4 * Z.of_nat (i + q))%Z by lia.
    specialize (H3 (i + q)). destruct (m (y + 4 * Z.of_nat (i + q))%Z) as [v'|]; [|exfalso; apply H3; [lia|reflexivity]]. congruence. }
  set (xs := firstn w (skipn i l)).
  assert (Lxs : length xs = w) by (unfold xs; rewrite firstn_length, skipn_length; lia).
  assert (Nxs : forall q, q < w -> nth_error xs q = nth_error l (i + q)).
  { intros q Hq. unfold xs. clear - Hq. revert i q Hq. generalize l. intros l0. induction l0 as [|b l0 IHl]; intros i q Hq.
    - rewrite skipn_nil, firstn_nil. now destruct q, i.
    - destruct i; cbn [skipn Nat.add]; [|apply IHl; exact Hq]. clear IHl. revert l0 b q Hq. induction w as [|w IHw]; intros l0 b q Hq; [lia|]. destruct q; cbn [firstn nth_error]; [reflexivity|].
      destruct l0 as [|b' l0]; [rewrite firstn_nil; now destruct q|]. apply IHw. lia. }
  destruct (kernel_ok s vex is K (x + 4 * Z.of_nat i)%Z (y + 4 * Z.of_nat i)%Z st xs ly) as (st' & R & Sy & Oy); [exact Lxs|etransitivity; [exact Lly|symmetry; exact Lxs]| |exact Sly|].
  { intros q v E. assert (q < w) by (rewrite <- Lxs; apply nth_error_Some; cbn [lane words] in *; congruence). rewrite Nxs in E by assumption.
    replace (x + 4 * Z.of_nat i + 4 * Z.of_nat q)%Z with (x + 4 * Z.of_nat (i + q))%Z by lia. apply H2; [exact E|lia]. }
  exists st'. split; [exact R|].
  apply (progress_next g i w m); [exact P|lia| |].
  - intros j a E Hj. rewrite Hg by lia. specialize (Sy (j - i) (lane_function c a)).
    replace (y + 4 * Z.of_nat i + 4 * Z.of_nat (j - i))%Z with (y + 4 * Z.of_nat j)%Z in Sy by lia. apply Sy.
    change (lane W) with Z. rewrite nth_error_map, Nxs by lia. replace (i + (j - i)) with j by lia. now rewrite E.
  - intros p Hp. apply Oy. intros Wp. apply Hp. rewrite <- Lxs. exact Wp.
Qed.
Lemma vector_loop_ok s vex is g : straight s [0] is = true -> let c := kernel_of s vex is in let w := lanes_of 4 s in
  forall k i m, progress g i m -> i + w * k <= n -> (forall j a, i <= j < i + w * k -> g j a = lane_function c a) ->
  (exists m', vector_loop c w x y i k m m') /\ forall m', vector_loop c w x y i k m m' -> progress g (i + w * k) m'.
Proof.
  intros K c w k. induction k as [|k IH]; intros i m P Hk Hg.
  - split; [exists m; constructor|]. intros m' V. inversion V; subst. now rewrite Nat.mul_0_r, Nat.add_0_r.
  - replace (i + w * S k) with (i + w + w * k) in * by lia. split.
    + destruct (vector_step s vex is g K i (any_state m) P) as (st' & R & P'); [unfold w in *; lia|intros; apply Hg; unfold w in *; lia|].
      destruct (IH (i + w) (mem st') P') as ((m' & V) & _); [lia|intros; apply Hg; lia|]. exists m'. apply (vector_call c w x y i k (any_state m) st' m' R V).
    + intros m' V. inversion V as [|i' k' st st1 m1 R1 V1]; subst.
      destruct (vector_step s vex is g K i st P) as (st' & R & P'); [unfold w in *; lia|intros; apply Hg; unfold w in *; lia|].
      assert (st' = st1) by (eapply returns_unique; eassumption). subst st1. destruct (IH (i + w) (mem st') P') as (_ & Q); [lia|intros; apply Hg; lia|]. now apply Q.
Qed.
End Loops.

Lemma apart_same x y n : apart_slices x y n -> same_or_apart 4 x y n.
Proof. intros H i j Hi Hj E. destruct (H i j Hi Hj E). Qed.
Definition minus_infinity : Z := encode (BinarySingleNaN.B754_infinity true).
Lemma zero_loop_ok x y (l : list Z) : apart_slices x y (length l) -> forall k i (m : Z -> option Z), slice W 4 m x l -> (forall j, j < length l -> m (y + 4 * Z.of_nat j)%Z <> None) -> i + k <= length l ->
  exists m', zero_loop x y i k m = Some m' /\
    (forall j a, nth_error l j = Some a -> m' (y + 4 * Z.of_nat j)%Z =
       if ((i <=? j) && (j <? i + k) && eq_val (decode a) fzero)%bool then Some minus_infinity else m (y + 4 * Z.of_nat j)%Z) /\
    (forall p, ~ within 4 y (length l) p -> m' p = m p).
Proof.
  intros A k. induction k as [|k IH]; intros i m Sx C Hk; cbn [zero_loop].
  - exists m. split; [reflexivity|split; [|reflexivity]]. intros j a E. destruct (Nat.leb_spec i j), (Nat.ltb_spec j (i + 0)); cbn [andb]; try reflexivity. lia.
  - destruct (nth_error l i) as [a|] eqn:E; [|apply nth_error_None in E; lia]. rewrite (Sx i a E). pose proof (C i) as Ci.
    destruct (m (y + 4 * Z.of_nat i)%Z) as [v|] eqn:Ey; [|exfalso; apply Ci; [lia|reflexivity]].
    set (m1 := if eq_val (decode a) fzero then AsmWords.set m (y + 4 * Z.of_nat i) (encode (BinarySingleNaN.B754_infinity true)) else m).
    assert (O1 : forall p, p <> (y + 4 * Z.of_nat i)%Z -> m1 p = m p).
    { intros p Hp. unfold m1. destruct (eq_val (decode a) fzero); [|reflexivity]. unfold AsmWords.set. destruct (Z.eqb_spec p (y + 4 * Z.of_nat i)); [contradiction|reflexivity]. }
    assert (Y1 : m1 (y + 4 * Z.of_nat i)%Z = if eq_val (decode a) fzero then Some minus_infinity else Some v).
    { unfold m1. destruct (eq_val (decode a) fzero); [|exact Ey]. unfold AsmWords.set. now rewrite Z.eqb_refl. }
    assert (Sx1 : slice W 4 m1 x l).
    { intros j b Eb. rewrite O1; [now apply Sx|]. apply A; [|lia]. apply nth_error_Some. cbn [lane words] in *. congruence. }
    destruct (IH (S i) m1 Sx1) as (m' & Z1 & Y' & O'); [|lia|].
    { intros j Hj. destruct (Nat.eq_dec j i) as [->|N]; [|rewrite O1 by lia; now apply C]. rewrite Y1. destruct (eq_val (decode a) fzero); discriminate. }
    exists m'. split; [exact Z1|split].
    + intros j b Eb. rewrite (Y' j b Eb). destruct (Nat.eq_dec j i) as [->|N].
      * rewrite E in Eb. injection Eb as <-. destruct (Nat.leb_spec (S i) i), (Nat.leb_spec i i), (Nat.ltb_spec i (i + S k)); try lia; cbn [andb]. rewrite Y1, Ey. reflexivity.
      * rewrite O1 by lia. destruct (Nat.leb_spec (S i) j), (Nat.leb_spec i j), (Nat.ltb_spec j (S i + k)), (Nat.ltb_spec j (i + S k)); try lia; reflexivity.
    + intros p Hp. rewrite O' by assumption. apply O1. intros ->. apply Hp. exists i. split; [lia|lia].
Qed.

(** ** Exp32 and Log32 *)
Lemma exp_straight_avx : straight Y [0] (body exp_avx32) = true. Proof. reflexivity. Qed.
Lemma exp_straight_sse : straight X [0] (body exp_sse32) = true. Proof. reflexivity. Qed.
Lemma log_straight_avx : straight Y [0] (body log_avx32) = true. Proof. reflexivity. Qed.
Lemma log_straight_sse : straight X [0] (body log_sse32) = true. Proof. reflexivity. Qed.
Lemma exp_kernel c : exists s vex is, ExpKernel32 c = kernel_of s vex is /\ straight s [0] is = true /\ width c = lanes_of 4 s.
Proof.
  unfold ExpKernel32, width. destruct (avx2 c).
  - exists Y, true, (body exp_avx32). split; [exact exp_avx32_shape|split; reflexivity].
  - exists X, false, (body exp_sse32). split; [exact exp_sse32_shape|split; reflexivity].
Qed.
Lemma log_kernel c : exists s vex is, LogKernel32 c = kernel_of s vex is /\ straight s [0] is = true /\ width c = lanes_of 4 s.
Proof.
  unfold LogKernel32, width. destruct (avx2 c).
  - exists Y, true, (body log_avx32). split; [exact log_avx32_shape|split; reflexivity].
  - exists X, false, (body log_sse32). split; [exact log_sse32_shape|split; reflexivity].
Qed.
Lemma width_pos c : 0 < width c. Proof. unfold width. destruct (avx2 c); lia. Qed.
Lemma whole_eq w n : 0 < w -> whole w n = w * (n / w) /\ whole w n + n mod w = n.
Proof. intros H. unfold whole. pose proof (Nat.div_mod n w ltac:(lia)). pose proof (Nat.mod_le n w ltac:(lia)). lia. Qed.

Theorem exp32_ok f c x y (l : list Z) m : slice W 4 m x l -> (forall j, j < length l -> m (y + 4 * Z.of_nat j)%Z <> None) -> same_or_apart 4 x y (length l) ->
  (exists m', Exp32 f c x y (length l) m m') /\ forall m', Exp32 f c x y (length l) m m' ->
    (forall i a, nth_error l i = Some a -> m' (y + 4 * Z.of_nat i)%Z = Some (if i <? whole (width c) (length l) then lane_function (ExpKernel32 c) a else scalar f a)) /\
    (forall p, ~ within 4 y (length l) p -> m' p = m p).
Proof.
  intros Sx C A. destruct (exp_kernel c) as (s & vex & is & Ek & K & Ew). pose proof (width_pos c) as Wp. destruct (whole_eq (width c) (length l) Wp) as (W1 & W2).
  set (g := fun i a => if i <? whole (width c) (length l) then lane_function (ExpKernel32 c) a else scalar f a).
  destruct (vector_loop_ok x y l m A s vex is g K (length l / width c) 0 m) as ((m1 & V) & P); [now apply progress_start|rewrite <- Ew; lia| |].
  { intros j a Hj. unfold g. rewrite <- Ew in Hj. destruct (Nat.ltb_spec j (whole (width c) (length l))); [now rewrite Ek|lia]. }
  rewrite <- Ew, <- Ek, Nat.add_0_l, <- W1 in *.
  assert (T : forall m1, progress x y l m g (whole (width c) (length l)) m1 -> exists m', scalar_loop f x y (length l - length l mod width c) (length l mod width c) m1 = Some m' /\ progress x y l m g (whole (width c) (length l) + length l mod width c) m').
  { intros m2 P2. apply (scalar_loop_ok x y l m A f g (length l mod width c) _ m2 P2); [lia|]. intros j a Hj. unfold g. destruct (Nat.ltb_spec j (whole (width c) (length l))); [lia|reflexivity]. }
  split.
  - destruct (T m1 (P m1 V)) as (m' & E & _). exists m', m1. split; [exact V|exact E].
  - intros m' (m2 & V2 & E2). destruct (T m2 (P m2 V2)) as (m3 & E3 & P'). assert (m3 = m') by congruence. subst m3. destruct P' as (H1 & _ & _ & H4). split; [|exact H4].
    intros i a Ea. assert (i < length l) by (apply nth_error_Some; congruence). rewrite (H1 i a Ea) by lia. reflexivity.
Qed.

Theorem log32_ok f c x y (l : list Z) m : slice W 4 m x l -> (forall j, j < length l -> m (y + 4 * Z.of_nat j)%Z <> None) -> apart_slices x y (length l) ->
  (exists m', Log32 f c x y (length l) m m') /\ forall m', Log32 f c x y (length l) m m' ->
    (forall i a, nth_error l i = Some a -> m' (y + 4 * Z.of_nat i)%Z = Some
      (if i <? whole (width c) (length l) then if ((width c <? length l) && (i + width c <=? length l) && eq_val (decode a) fzero)%bool then minus_infinity else lane_function (LogKernel32 c) a else scalar f a)) /\
    (forall p, ~ within 4 y (length l) p -> m' p = m p).
Proof.
  intros Sx C A'. pose proof (apart_same _ _ _ A') as A. destruct (log_kernel c) as (s & vex & is & Ek & K & Ew). pose proof (width_pos c) as Wp. destruct (whole_eq (width c) (length l) Wp) as (W1 & W2).
  pose proof (Nat.mod_upper_bound (length l) (width c) ltac:(lia)) as W3.
  set (h := fun i a => if i <? whole (width c) (length l) then lane_function (LogKernel32 c) a else scalar f a).
  set (g := fun i a => if ((width c <? length l) && (i + width c <=? length l) && eq_val (decode a) fzero)%bool then minus_infinity else h i a).
  destruct (vector_loop_ok x y l m A s vex is h K (length l / width c) 0 m) as ((m1 & V) & PV); [now apply progress_start|rewrite <- Ew; lia| |].
  { intros j a Hj. unfold h. rewrite <- Ew in Hj. destruct (Nat.ltb_spec j (whole (width c) (length l))); [now rewrite Ek|lia]. }
  rewrite <- Ew, <- Ek, Nat.add_0_l, <- W1 in *.
  assert (T1 : forall m1, progress x y l m h (whole (width c) (length l)) m1 -> exists m2, (if width c <? length l then zero_loop x y 0 (length l - width c + 1) m1 else Some m1) = Some m2 /\ progress x y l m g (whole (width c) (length l)) m2).
  { clear m1 V PV. intros m1 P. destruct P as (H1 & H2 & H3 & H4).
    assert (Sx1 : slice W 4 m1 x l).
    { intros j a E. rewrite H4; [now apply Sx|]. intros (q & Hq & E'). revert E'. apply A'; [apply nth_error_Some; cbn [lane words] in *; congruence|exact Hq]. }
    destruct (Nat.ltb_spec (width c) (length l)) as [Q|Q].
    - destruct (zero_loop_ok x y l A' (length l - width c + 1) 0 m1 Sx1 H3) as (m2 & Z2 & Y2 & O2); [lia|]. exists m2. split; [exact Z2|].
      assert (X2 : forall j a, nth_error l j = Some a -> m2 (y + 4 * Z.of_nat j)%Z = if ((j + width c <=? length l) && eq_val (decode a) fzero)%bool then Some minus_infinity else m1 (y + 4 * Z.of_nat j)%Z).
      { intros j a E. rewrite (Y2 j a E). rewrite Nat.add_0_l. destruct (Nat.leb_spec 0 j), (Nat.ltb_spec j (length l - width c + 1)), (Nat.leb_spec (j + width c) (length l)); try lia; reflexivity. }
      split; [|split; [|split]].
      + intros j a E Hj. rewrite (X2 j a E). unfold g. destruct (Nat.ltb_spec (width c) (length l)); [|lia]. cbn [andb]. destruct ((j + width c <=? length l) && eq_val (decode a) fzero)%bool; [reflexivity|now apply H1].
      + intros j a E Hj. rewrite O2; [now apply Sx1|]. intros (q & Hq & E'). revert E'. apply A'; [apply nth_error_Some; congruence|exact Hq].
      + intros j Hj. destruct (nth_error l j) as [a|] eqn:E; [|apply nth_error_None in E; lia]. rewrite (X2 j a E). destruct ((j + width c <=? length l) && eq_val (decode a) fzero)%bool; [discriminate|now apply H3].
      + intros p Hp. rewrite O2 by assumption. now apply H4.
    - exists m1. split; [reflexivity|]. split; [intros j a E Hj|split; [|split]; auto]. unfold g. destruct (Nat.ltb_spec (width c) (length l)); [lia|]. now apply H1. }
  assert (T2 : forall m2, progress x y l m g (whole (width c) (length l)) m2 -> exists m', scalar_loop f x y (length l - length l mod width c) (length l mod width c) m2 = Some m' /\ progress x y l m g (whole (width c) (length l) + length l mod width c) m').
  { intros m2 P2. apply (scalar_loop_ok x y l m A f g (length l mod width c) _ m2 P2); [lia|].
    intros j a Hj. unfold g, h. destruct (Nat.ltb_spec j (whole (width c) (length l))); [lia|]. destruct (Nat.leb_spec (j + width c) (length l)); [lia|]. rewrite andb_false_r. reflexivity. }
  split.
  - destruct (T1 m1 (PV m1 V)) as (m2 & Z2 & P2). destruct (T2 m2 P2) as (m' & E & _). exists m', m1, m2. split; [exact V|split; [exact Z2|exact E]].
  - intros m' (m3 & m4 & V3 & Z4 & E4). destruct (T1 m3 (PV m3 V3)) as (m2 & Z2 & P2). assert (m2 = m4) by congruence. subst m4.
    destruct (T2 m2 P2) as (m5 & E5 & P'). assert (m5 = m') by congruence. subst m5. destruct P' as (H1 & _ & _ & H4). split; [|exact H4].
    intros i a Ea. assert (i < length l) by (apply nth_error_Some; congruence). rewrite (H1 i a Ea) by lia. unfold g, h.
    destruct (Nat.ltb_spec i (whole (width c) (length l))); [reflexivity|]. destruct (Nat.leb_spec (i + width c) (length l)); [unfold whole in *; lia|]. rewrite andb_false_r. reflexivity.
Qed.
