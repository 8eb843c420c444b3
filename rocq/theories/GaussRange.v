(** * NormFloat64: what it can return, that it does not panic, and that it ends *)
From Coq Require Import List ZArith Reals Lia Lra Bool.
From Flocq Require Import Core BinarySingleNaN.
From Verif Require Import RandModel RandSpec RandPeriod FloatModel FloatSpec NumModel NumSpec NumLemmas AsmFloatSpec AsmFloat OptFloatNum.
From Verif Require Import GaussTables GaussModel GaussSpec GaussTab GaussReal GaussProofs GaussFloat GaussAttempt GaussTail.
Import ListNotations.
Open Scope R_scope.

(** what one word does *)
Lemma step_form m p w : exists s : (val F64 + option phase), forall l, norm_from m p (w :: l) =
  match s with inl v => Got v l | inr (Some q) => norm_from m q l | inr None => Panics end.
Proof.
  Ltac found := match goal with
    | |- exists _, forall l, Got ?x l = _ => exists (inl x); intros; apply eq_refl
    | |- exists _, forall l, norm_from _ ?q l = _ => exists (inr (Some q)); intros; apply eq_refl
    | |- exists _, forall l, Panics = _ => exists (inr None); intros; apply eq_refl end.
  cbn [norm_from]. cbv zeta. destruct p as [|j|j x|i x].
  - destruct (nth_error wn _); [|found]. destruct (nth_error kn _); [|found]. destruct (_ <? _)%Z; [found|]. destruct (_ =? _)%Z; found.
  - destruct (Beqb _ _); found.
  - destruct (Beqb _ _); [found|]. destruct (fle _ _); found.
  - destruct (Beqb _ _); [found|]. destruct (height _ _); [|found]. destruct (flt _ _); found.
Qed.
(** a call uses up some words, and what follows them does not matter *)
Lemma norm_consumes m p ws v rest : norm_from m p ws = Got v rest -> exists used, ws = used ++ rest /\ used <> [] /\ forall more, norm_from m p (used ++ more) = Got v more.
Proof.
  revert p. induction ws as [|w ws IH]; intros p H; [discriminate|]. destruct (step_form m p w) as (s & E). rewrite E in H. destruct s as [x|[q|]]; [| |discriminate].
  - injection H as Ex Er. subst. exists [w]. split; [reflexivity|]. split; [discriminate|]. intros more. apply E.
  - destruct (IH q H) as (used & -> & _ & U). exists (w :: used). split; [reflexivity|]. split; [discriminate|]. intros more. cbn [app]. rewrite E. apply U.
Qed.

Section Range.
Variable m : libm.
Hypothesis M : go_math m.

Lemma flog_zero w : is_word w -> zero_word w -> flog m w = infinity.
Proof.
  intros H Z. destruct (unit_of_eq w H) as (F & E & _). unfold unit in E. rewrite Z in E. unfold flog.
  assert (Q : exists s, unit_of w = B754_zero s).
  { destruct (unit_of w) as [s|s| |s mm e B]; try discriminate F; [now exists s|]. exfalso. cbn in E. revert E. unfold F2R. cbn.
    intros E. assert (IZR (cond_Zopp s (Zpos mm)) <> 0) by (apply not_0_IZR; destruct s; discriminate). pose proof (bpow_gt_0 radix2 e). nra. }
  destruct Q as (s & ->). rewrite (log_zero m M). reflexivity.
Qed.
Lemma fbeyond_zero w : is_word w -> zero_word w -> fbeyond m w = infinity.
Proof. intros H Z. unfold fbeyond. rewrite flog_zero by assumption. vm_compute. reflexivity. Qed.
Lemma zero_dec w : zero_word w \/ ~ zero_word w.
Proof. unfold zero_word. destruct (Z.eq_dec (w mod 2 ^ 53) 0); [now left|now right]. Qed.
Lemma flog_cases w : is_word w -> (zero_word w /\ flog m w = infinity) \/ (~ zero_word w /\ finite (flog m w) /\ finite (fadd (flog m w) (flog m w))).
Proof.
  intros H. destruct (zero_dec w) as [Z|Z]; [left; split; [exact Z|now apply flog_zero]|right]. split; [exact Z|].
  split; [apply (flog_close m M w H Z)|apply (right_close m M w H Z)].
Qed.

(** where a call can be, the words already used last first *)
Definition okp (hist : list Z) (p : phase) : Prop :=
  match p with
  | Start => True
  | Tail j => True
  | Tail2 j x => (finite x /\ 0 <= real x <= 10.807) \/ (x = infinity /\ exists a h, hist = a :: h /\ zero_word a)
  | Strip i x => exists n, i = Z.of_nat n /\ (1 <= n < 128)%nat /\ finite x /\ Rabs (real x) <= 3.8
  end.
Definition okv (all rest : list Z) (v : val F64) : Prop :=
  (finite v /\ Rabs (real v) <= 14.25) \/
  ((v = infinity \/ v = minus_infinity) /\ exists pre a b, all = pre ++ a :: b :: rest /\ zero_word a /\ zero_word b).

Lemma norm_invariant ws : forall hist p, Forall is_word ws -> okp hist p ->
  norm_from m p ws = Exhausted \/ exists v rest, norm_from m p ws = Got v rest /\ okv (rev hist ++ ws) rest v.
Proof.
  induction ws as [|w ws IH]; intros hist p A P; [now left|]. inversion A as [|? ? H A']; subst.
  assert (K : forall q, okp (w :: hist) q -> norm_from m q ws = Exhausted \/ exists v rest, norm_from m q ws = Got v rest /\ okv (rev hist ++ w :: ws) rest v).
  { intros q Q. destruct (IH (w :: hist) q A' Q) as [E|(v & rest & E & O)]; [now left|right]. exists v, rest. split; [exact E|]. cbn [rev] in O. rewrite <- app_assoc in O. exact O. }
  destruct p as [|j|j x|i x].
  - rewrite start_step by assumption. destruct (value_facts w H) as (Fv & _ & Bv). pose proof (edge_le_0 _ (strip_lt w)) as Be.
    destruct (_ <? _)%Z; [right; exists (value w), ws; split; [reflexivity|left; split; [exact Fv|lra]]|].
    destruct (Nat.eqb_spec (strip_of w) 0); apply K; cbn [okp]; [exact I|]. exists (strip_of w). pose proof (strip_lt w). repeat split; [lia|lia|exact Fv|lra].
  - rewrite tail_step by assumption. apply K. cbn [okp]. fold (flog m w). fold (fbeyond m w). destruct (zero_dec w) as [Z|Z].
    + right. split; [now apply fbeyond_zero|]. exists w, hist. now split.
    + left. split; [apply (fbeyond_close m M w H Z)|now apply (fbeyond_small m M)].
  - rewrite tail2_step by assumption. fold (flog m w). cbn [okp] in P. fold (tail_value j x).
    destruct P as [(Fx & Bx)|(-> & a & h & -> & Za)].
    + destruct (fle _ _); [|now apply K]. right. exists (tail_value j x), ws. split; [reflexivity|left]. destruct (tail_value_eq j x Fx Bx) as (F & B & _). split; [exact F|lra].
    + destruct (flog_cases w H) as [(Zw & ->)|(_ & _ & Fq)].
      * right. cbn -[tail_value okv]. exists (tail_value j infinity), ws. split; [reflexivity|right]. split.
        -- unfold tail_value. destruct (0 <? j)%Z; [left|right]; vm_compute; reflexivity.
        -- exists (rev h), a, w. cbn [rev]. rewrite <- app_assoc. repeat split; assumption.
      * replace (fle _ _) with false; [now apply K|]. destruct (fadd _ _); try discriminate Fq; reflexivity.
  - destruct P as (n & -> & Hn & Fx & Bx). rewrite strip_step by assumption. destruct (flt _ _); [|now apply K].
    right. exists x, ws. split; [reflexivity|left]. split; [exact Fx|lra].
Qed.

(** ** It ends *)
Definition good (w : Z) : Prop := is_word w /\ fast w /\ (2 ^ 51 <= w mod 2 ^ 53 <= 2 ^ 52)%Z.
Lemma good_start w ws : good w -> norm_from m Start (w :: ws) = Got (value w) ws.
Proof. intros (H & F & _). rewrite start_step by assumption. unfold fast in F. apply Z.ltb_lt in F. now rewrite F. Qed.
Lemma good_ln w : good w -> ~ zero_word w /\ 0.5 <= neg_ln w <= 1.4.
Proof.
  intros (H & _ & A & B). assert (Z : ~ zero_word w) by (unfold zero_word; lia). split; [exact Z|]. unfold neg_ln.
  assert (U : / 4 <= unit w <= / 2).
  { unfold unit. apply IZR_le in A, B. rewrite (powZ 51 51 eq_refl) in A. rewrite (powZ 52 52 eq_refl) in B.
    split; apply (Rmult_le_reg_r (2 ^ 53)); try apply pow2_pos; unfold Rdiv; rewrite (Rmult_assoc _ (/ 2 ^ 53)), Rinv_l by (pose proof (pow2_pos 53); lra); rewrite Rmult_1_r;
      [eapply Rle_trans; [|exact A]|eapply Rle_trans; [exact B|]]; cbn [pow]; lra. }
  assert (L2 : 0.5 <= ln 2). { rewrite <- (ln_exp 0.5). apply Rcomplements.ln_le; [apply exp_pos|]. pose proof (exp_ineq1_le (- (0.5))) as E. rewrite exp_Ropp in E. pose proof (exp_pos 0.5).
    assert (exp 0.5 * / exp 0.5 = 1) by (apply Rinv_r; lra). nra. }
  pose proof ln_2 as L3. assert (ln (/ 4) <= ln (unit w)) by (apply Rcomplements.ln_le; lra). assert (ln (unit w) <= ln (/ 2)) by (apply Rcomplements.ln_le; lra).
  rewrite ln_Rinv in H0, H1 by lra. replace 4 with (2 * 2) in H0 by ring. rewrite ln_mult in H0 by lra. lra.
Qed.
Lemma good_tail j w1 w2 ws : good w1 -> good w2 -> norm_from m (Tail j) (w1 :: w2 :: ws) = Got (tail_value j (fbeyond m w1)) ws.
Proof.
  intros G1 G2. destruct (good_ln w1 G1) as (Z1 & A1). destruct (good_ln w2 G2) as (Z2 & A2). apply (tail_accepts m M); try assumption; [apply G1|apply G2|].
  unfold beyond_start, tail_start. set (n := neg_ln w1) in *. clearbody n.
  assert (B : 0 <= n / 3.442619855899 <= 0.5) by lra. set (a := n / 3.442619855899) in *. clearbody a.
  assert (a * a <= 0.25) by nra. assert (0 <= a * a) by nra. set (s := a * a) in *. clearbody s. cbn [pow]. lra.
Qed.
Lemma good_ends ws : forall hist p g1 g2 g3 rest, Forall is_word ws -> okp hist p -> good g1 -> good g2 -> good g3 ->
  norm_from m p (ws ++ g1 :: g2 :: g3 :: rest) <> Exhausted.
Proof.
  induction ws as [|w ws IH]; intros hist p g1 g2 g3 rest A P G1 G2 G3.
  - cbn [app]. destruct p as [|j|j x|i x].
    + now rewrite good_start.
    + now rewrite good_tail.
    + rewrite tail2_step by apply G1. destruct (fle _ _); [discriminate|]. now rewrite good_tail.
    + destruct P as (n & -> & Hn & Fx & Bx). rewrite strip_step by (assumption || apply G1). destruct (flt _ _); [discriminate|]. now rewrite good_start.
  - inversion A as [|? ? H A']; subst. cbn [app]. destruct p as [|j|j x|i x].
    + rewrite start_step by assumption. destruct (_ <? _)%Z; [discriminate|]. destruct (value_facts w H) as (Fv & _ & Bv). pose proof (edge_le_0 _ (strip_lt w)) as Be.
      destruct (Nat.eqb_spec (strip_of w) 0); apply (IH (w :: hist)); auto. cbn [okp]. exists (strip_of w). pose proof (strip_lt w). repeat split; [lia|lia|exact Fv|lra].
    + rewrite tail_step by assumption. apply (IH (w :: hist)); auto. cbn [okp]. fold (flog m w). fold (fbeyond m w). destruct (zero_dec w) as [Z|Z].
      * right. split; [now apply fbeyond_zero|]. exists w, hist. now split.
      * left. split; [apply (fbeyond_close m M w H Z)|now apply (fbeyond_small m M)].
    + rewrite tail2_step by assumption. destruct (fle _ _); [discriminate|]. apply (IH (w :: hist)); auto; exact I.
    + destruct P as (n & -> & Hn & Fx & Bx). rewrite strip_step by assumption. destruct (flt _ _); [discriminate|]. apply (IH (w :: hist)); auto; exact I.
Qed.

(** ** The generator of the package *)
Lemma lor_word a b : (0 <= a < 2 ^ 64)%Z -> (0 <= b < 2 ^ 64)%Z -> (0 <= Z.lor a b < 2 ^ 64)%Z.
Proof.
  intros A B. assert (0 <= Z.lor a b)%Z by (apply Z.lor_nonneg; lia). split; [assumption|]. destruct (Z.eq_dec (Z.lor a b) 0) as [->|N]; [lia|].
  apply Z.log2_lt_pow2; [lia|]. rewrite Z.log2_lor by lia. apply Z.max_lub_lt.
  - destruct (Z.eq_dec a 0) as [->|]; [cbn; lia|apply Z.log2_lt_pow2; lia].
  - destruct (Z.eq_dec b 0) as [->|]; [cbn; lia|apply Z.log2_lt_pow2; lia].
Qed.
Lemma output_word s : valid_state s -> is_word (output s).
Proof.
  intros ((L1 & L2) & (H1 & H2)). unfold is_word, output, rotate_left64. unfold W in *.
  assert (X : (0 <= Z.lxor (high s) (RandModel.low s) < 2 ^ 64)%Z).
  { assert (0 <= Z.lxor (high s) (RandModel.low s))%Z by (apply Z.lxor_nonneg; lia). split; [assumption|]. destruct (Z.eq_dec (Z.lxor (high s) (RandModel.low s)) 0) as [->|N]; [lia|].
    apply Z.log2_lt_pow2; [lia|]. eapply Z.le_lt_trans; [apply Z.log2_lxor; lia|]. apply Z.max_lub_lt.
    - destruct (Z.eq_dec (high s) 0) as [->|]; [cbn; lia|apply Z.log2_lt_pow2; lia].
    - destruct (Z.eq_dec (RandModel.low s) 0) as [->|]; [cbn; lia|apply Z.log2_lt_pow2; lia]. }
  set (x := Z.lxor _ _) in *. clearbody x. set (k := Z.land _ _).
  assert (K : (0 <= k <= 63)%Z). { unfold k. change 63%Z with (Z.ones 6). rewrite Z.land_ones by lia. change (Z.ones 6) with 63%Z. pose proof (Z.mod_pos_bound (- Z.shiftr (high s) 58) (2 ^ 6) ltac:(lia)). lia. }
  clearbody k. apply lor_word.
  - unfold word, W. apply Z.mod_pos_bound. lia.
  - rewrite Z.shiftr_div_pow2 by lia. pose proof (Z.pow_pos_nonneg 2 (64 - k) ltac:(lia) ltac:(lia)). split; [apply Z.div_pos; lia|].
    apply Z.div_lt_upper_bound; [lia|]. nia.
Qed.
Lemma words_word n : forall s, valid_state s -> Forall is_word (words n s).
Proof.
  induction n as [|n IH]; intros s H; cbn [words]; [constructor|]. unfold pcg_uint64. pose proof (next_valid s) as V. constructor; [now apply output_word|now apply IH].
Qed.
Lemma words_app n k : forall s, words (n + k) s = words n s ++ words k (draws n s).
Proof.
  induction n as [|n IH]; intros s; [reflexivity|]. cbn [words Nat.add]. unfold pcg_uint64. cbn [app]. f_equal. rewrite IH. f_equal. f_equal.
  unfold draws. clear. induction n as [|n IH]; [reflexivity|]. change (next (Nat.iter n next (next s)) = next (Nat.iter (S n) next s)). now rewrite IH.
Qed.
Lemma good_bool w : is_word w -> ((Z.abs (place_of w) <? nth (strip_of w) kn 0) && (2 ^ 51 <=? w mod 2 ^ 53) && (w mod 2 ^ 53 <=? 2 ^ 52))%Z = true -> good w.
Proof. intros H B. apply andb_true_iff in B as (B & B3). apply andb_true_iff in B as (B1 & B2). split; [exact H|]. split; [now apply Z.ltb_lt|]. split; now apply Z.leb_le. Qed.
Lemma three_good : Forall good (words 3 (mkPcg 9 9)).
Proof.
  apply Forall_forall. intros w Hw. apply good_bool.
  - revert w Hw. apply Forall_forall, words_word. vm_compute. repeat split; discriminate.
  - assert (A : forallb (fun w => ((Z.abs (place_of w) <? nth (strip_of w) kn 0) && (2 ^ 51 <=? w mod 2 ^ 53) && (w mod 2 ^ 53 <=? 2 ^ 52))%Z) (words 3 (mkPcg 9 9)) = true) by (vm_compute; reflexivity).
    rewrite forallb_forall in A. now apply A.
Qed.
Lemma always_ends s : valid_state s -> exists n v rest, (Z.of_nat n < 2 ^ 128)%Z /\ norm_float64 m (words (n + 3) s) = Got v rest.
Proof.
  intros V. assert (V9 : valid_state (mkPcg 9 9)) by (vm_compute; repeat split; discriminate). destruct (pcg_reaches s _ V V9) as (n & Hn & D). exists n.
  rewrite words_app, D. pose proof three_good as G. assert (L : length (words 3 (mkPcg 9 9)) = 3%nat) by (vm_compute; reflexivity).
  set (l := words 3 (mkPcg 9 9)) in *. clearbody l. destruct l as [|g1 [|g2 [|g3 [|]]]]; try discriminate L.
  inversion G as [|? ? G1 G']; subst. inversion G' as [|? ? G2 G'']; subst. inversion G'' as [|? ? G3 _]; subst.
  pose proof (good_ends (words n s) [] Start g1 g2 g3 [] (words_word n s V) I G1 G2 G3) as NE.
  destruct (norm_invariant (words n s ++ [g1; g2; g3]) [] Start) as [X|(v & rest & X & _)]; [|exact I|contradiction|].
  - apply Forall_app. split; [now apply words_word|]. constructor; [apply G1|]. constructor; [apply G2|]. constructor; [apply G3|constructor].
  - exists v, rest. split; [exact Hn|exact X].
Qed.

(** a state from which the next call returns -infinity *)
Definition bad_state : pcg := mkPcg 12024433923701697203 15898050146479658018.
Lemma bad_valid : valid_state bad_state. Proof. vm_compute. repeat split; discriminate. Qed.
Lemma bad_norm rest : norm_float64 m (words 3 bad_state ++ rest) = Got minus_infinity rest.
Proof.
  pose proof (words_word 3 bad_state bad_valid) as A. assert (E : words 3 bad_state = [0x86d9228053725f90; 0xe280000000000000; 0]%Z) by (vm_compute; reflexivity). rewrite E in *.
  inversion A as [|? ? A1 A']; subst. inversion A' as [|? ? A2 A'']; subst. inversion A'' as [|? ? A3 _]; subst. cbn [app]. unfold norm_float64. rewrite start_step by assumption.
  replace (_ <? _)%Z with false by (vm_compute; reflexivity). replace (Nat.eqb _ _) with true by (vm_compute; reflexivity).
  rewrite tail_pass by assumption. rewrite fbeyond_zero, flog_zero by (assumption || reflexivity). 
  replace (fle _ _) with true by (vm_compute; reflexivity). f_equal.
Qed.
End Range.
