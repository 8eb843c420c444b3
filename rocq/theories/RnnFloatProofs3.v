(** * Recurrent networks in floating point: the steps and the runs *)
From Coq Require Import ZArith Bool Lia List Arith Reals Lra.
From Flocq Require Import Core BinarySingleNaN.
From Verif Require Import AsmModel AsmCalls AsmSpec FloatModel FloatSpec FloatProofs NumModel NumSpec NumLemmas NumProofs AsmFloatSpec AsmFloat AsmFloat2 SoftSpec OptFloatNum NormFloatModel NormFloatBack5 LossFloatModel LossFloatSpec RnnFloatModel RnnFloatSpec RnnFloatProofs RnnFloatProofs2.
Import ListNotations.
Local Open Scope list_scope.
Local Open Scope R_scope.

(** ** Runs *)
Lemma run_steps {d S} (next : nat -> option S -> list (val d) -> S) (X : list (val d) -> Prop) (I : S -> Prop) (P : option S -> list (val d) -> S -> Prop) :
  (forall t s x, (forall s', s = Some s' -> I s') -> X x -> I (next t s x) /\ P s x (next t s x)) ->
  forall xs t s, (forall s', s = Some s' -> I s') -> Forall X xs -> length (run d next t s xs) = length xs /\ Forall I (run d next t s xs) /\ steps P s xs (run d next t s xs).
Proof.
  intros H. induction xs as [|x xs IH]; intros t s Hs Fx; cbn [run length steps]; [repeat split; constructor|]. inversion Fx; subst. destruct (H t s x Hs H2) as (Hi & Hp).
  destruct (IH (t + 1)%nat (Some (next t s x))) as (L & F & St); [intros s' E; injection E as <-; exact Hi|assumption|]. rewrite L. repeat split; auto.
Qed.
Lemma steps_impl {X S} (T : Prop) (P : option S -> X -> S -> Prop) xs : T -> forall s ss, steps (fun s x s' => T -> P s x s') s xs ss -> steps P s xs ss.
Proof. intros HT. induction xs as [|x xs IH]; intros s [|s' ss] H; cbn [steps] in *; try exact H; try contradiction. destruct H as (H1 & H2). split; [exact (H1 HT)|exact (IH _ _ H2)]. Qed.
Lemma zip_len {A B C} (f : A -> B -> C) x y n : length x = n -> length y = n -> length (zip f x y) = n.
Proof. intros <- E. apply zip_length. symmetry. exact E. Qed.
Lemma vector_nth {d} n B (v : list (val d)) : length v = n -> (forall i, (i < n)%nat -> finite (nth i v fzero) /\ Rabs (at_ v i) <= B) -> vector_in n B v.
Proof. intros L H. split; [exact L|]. apply Forall_forall. intros e He. apply (In_nth _ _ fzero) in He. destruct He as (i & Hi & <-). apply H. lia. Qed.
Lemma nth_vector {d} n B (v : list (val d)) i : vector_in n B v -> (i < n)%nat -> finite (nth i v fzero) /\ Rabs (at_ v i) <= B.
Proof. intros (L & F) H. rewrite Forall_forall in F. apply F, nth_In. lia. Qed.

Section Net.
Variables (m : libm) (d : dtype) (c : cpu) (dot : list nat -> list (val d * val d) -> val d).
Hypothesis G : go_math m.
Hypothesis D : dots_all dot.
Variables (k n : nat) (B : R).
Hypothesis HB : 0 <= B.
Hypothesis Nk : INR k * u d <= / 8.
Hypothesis Nn : INR n * u d <= / 8.
Notation vec := (list (val d)).
Notation vexp := (vector_exp m d c).

(** ** SRN *)
Theorem srn_ok (g : gate d) (xs : list vec) : good_gate k n B 1 g -> Forall (vector_in k B) xs ->
  let ys := srn_forward m d dot g xs in length ys = length xs /\ Forall (vector_in n 1) ys /\ (tanh_accurate m -> steps (srn_step k n g) None xs ys).
Proof.
  intros Q Fx ys.
  destruct (run_steps (srn_next m d dot g) (vector_in k B) (vector_in n 1) (fun s x y => tanh_accurate m -> srn_step k n g s x y)) with (xs := xs) (t := 0%nat) (s := @None vec) as (L & F & St).
  - intros t s x Hs Hx. destruct (tanh_gate d dot D k n B 1 g HB Rle_0_1 Q Nk Nn m G t 0 x s Hx) as (A & E). { destruct s; [apply Hs; reflexivity|exact I]. } split; [exact A|]. intros T. exact (E T).
  - discriminate.
  - exact Fx.
  - split; [exact L|]. split; [exact F|]. intros T. exact (steps_impl _ _ _ T _ _ St).
Qed.

(** ** GRU *)
Lemma gru_ok (g : gru d) (xs : list vec) : good_gate k n B 1 (Res g) -> good_gate k n B 1 (Part g) -> good_gate k n B 1 (Cand g) -> Forall (vector_in k B) xs ->
  let ss := gru_forward m d dot vexp g xs in length ss = length xs /\ Forall (gru_in n) ss /\ (tanh_accurate m -> steps (gru_step k n g) None xs ss).
Proof.
  intros Q1 Q2 Q3 Fx ss.
  destruct (run_steps (gru_next m d dot vexp g) (vector_in k B) (gru_in n) (fun s x s' => tanh_accurate m -> gru_step k n g s x s')) with (xs := xs) (t := 0%nat) (s := @None (gru_state d)) as (L & F & St).
  - intros t s x Hs Hx. set (s' := gru_next m d dot vexp g t s x). set (y := option_map gY s).
    assert (Ey : (match s with None => None | Some s => Some (gY s) end) = y) by (unfold y; destruct s; reflexivity).
    assert (Hy : before d n 1 y). { unfold y. destruct s as [s|]; [|exact I]. destruct (Hs s eq_refl) as (_ & _ & _ & H). exact H. }
    destruct (sigmoid_gate d dot D k n B 1 (Res g) HB Rle_0_1 Q1 Nk Nn m G c t 0 x y Hx Hy) as (LR & HR).
    destruct (sigmoid_gate d dot D k n B 1 (Part g) HB Rle_0_1 Q2 Nk Nn m G c t 1 x y Hx Hy) as (LP & HP).
    assert (ER : gR s' = sigmoid d vexp (affine d dot t 0 (Res g) x y)) by (unfold s', gru_next; cbn [gR]; rewrite Ey; reflexivity).
    assert (EP : gP s' = sigmoid d vexp (affine d dot t 1 (Part g) x y)) by (unfold s', gru_next; cbn [gP]; rewrite Ey; reflexivity).
    rewrite <- ER in LR, HR. rewrite <- EP in LP, HP.
    set (z := match y with None => None | Some y => Some (prod d y (gR s')) end).
    assert (Hz : reset_input n y (gR s') z).
    { unfold z. clearbody y. destruct y as [y|]; [|exact I].
      assert (N : forall i, (i < n)%nat -> finite (nth i (prod d y (gR s')) fzero) /\ Rabs (at_ (prod d y (gR s')) i) <= 1 /\ Rabs (at_ (prod d y (gR s')) i - at_ y i * at_ (gR s') i) <= u d * Rabs (at_ y i * at_ (gR s') i) + half_tiny d).
      { intros i Hi. unfold prod. rewrite nth_zip by (rewrite ?LR; destruct Hy; lia). destruct (nth_vector _ _ _ i Hy Hi) as (F1 & B1). destruct (HR i Hi) as (F2 & B2 & _). apply prod_in; auto; [apply rep_1|]. apply Rabs_le. lra. }
      split; [apply vector_nth; [unfold prod; rewrite zip_length; destruct Hy; lia|]|]; intros i Hi; destruct (N i Hi) as (N1 & N2 & N3); auto. }
    assert (Bz : before d n 1 z) by (clearbody z; unfold before; destruct y, z; try contradiction; [apply Hz|exact I]).
    destruct (tanh_gate d dot D k n B 1 (Cand g) HB Rle_0_1 Q3 Nk Nn m G t 2 x z Hx Bz) as (VC & HC).
    assert (EC : gC s' = tanh_op m d (affine d dot t 2 (Cand g) x z)). { unfold z. rewrite ER. unfold s', gru_next. cbn [gC]. rewrite Ey. reflexivity. }
    rewrite <- EC in VC, HC.
    assert (EY : gY s' = match y with None => prod d (gP s') (gC s') | Some y => add d (prod d (gP s') (gC s')) (prod d (map (one_minus d) (gP s')) y) end).
    { unfold s', gru_next. cbn [gY gP gC]. rewrite Ey. reflexivity. }
    assert (HYn : length (gY s') = n /\ forall i, (i < n)%nat -> finite (nth i (gY s') fzero) /\ Rabs (at_ (gY s') i) <= 1 /\ Rabs (at_ (gY s') i - (at_ (gP s') i * at_ (gC s') i + match y with None => 0 | Some y => (1 - at_ (gP s') i) * at_ y i end)) <= 4 * u d).
    { pose proof (proj1 VC) as LC. rewrite EY. clear EY EC ER EP. clearbody s' y. destruct y as [y|].
      - pose proof (proj1 Hy) as Ly. unfold add, prod. split; [repeat apply zip_len; rewrite ?map_length; lia|]. intros i Hi.
        rewrite !nth_zip by (rewrite ?(zip_len _ _ _ n) by (rewrite ?map_length; lia); rewrite ?map_length; lia). rewrite (nth_indep (map (one_minus d) (gP s')) fzero (one_minus d fzero)) by (rewrite map_length; lia). rewrite (map_nth (one_minus d)).
        destruct (HP i Hi) as (F1 & B1 & _), (nth_vector _ _ _ i VC Hi) as (F2 & B2), (nth_vector _ _ _ i Hy Hi) as (F3 & B3). apply gru_elem; assumption.
      - unfold prod. split; [rewrite zip_length; lia|]. intros i Hi. rewrite nth_zip by lia. destruct (HP i Hi) as (F1 & B1 & _), (nth_vector _ _ _ i VC Hi) as (F2 & B2). apply gru_first; assumption. }
    destruct HYn as (LY & HYn). clear EY EC ER EP. clearbody s'. split.
    + split; [apply vector_nth; [exact LR|intros i Hi; destruct (HR i Hi) as (F1 & B1 & _); split; [exact F1|apply Rabs_le; lra]]|]. split; [apply vector_nth; [exact LP|intros i Hi; destruct (HP i Hi) as (F1 & B1 & _); split; [exact F1|apply Rabs_le; lra]]|].
      split; [exact VC|]. apply vector_nth; [exact LY|]. intros i Hi. destruct (HYn i Hi) as (F1 & B1 & _). auto.
    + intros T. unfold gru_step. cbv zeta. fold y. split; [exists z; split; [exact Hz|exact (HC T)]|]. intros i Hi. destruct (HR i Hi) as (_ & (R0 & _) & R1), (HP i Hi) as (_ & (P0 & _) & P1), (HYn i Hi) as (_ & _ & Y1). auto.
  - discriminate.
  - exact Fx.
  - split; [exact L|]. split; [exact F|]. intros T. exact (steps_impl _ _ _ T _ _ St).
Qed.

(** ** LSTM *)
Variables (Gb M : R).
Hypothesis Sc : scale d Gb M.
Lemma refined_ok (b : bool) (v x : vec) (ex er : nat -> R) : (b = true -> k = n /\ B = Gb) -> vector_in k B x -> length v = n ->
  (forall i, (i < n)%nat -> finite (nth i v fzero) /\ 0 <= at_ v i <= 1 /\ Rabs (at_ v i - ex i) <= er i) ->
  let w := if b then prod d v x else v in vector_in n Gb w /\ forall i, (i < n)%nat -> refined_gate b (nth i x fzero) (nth i w fzero) (ex i) (er i).
Proof.
  intros Hb Hx L H w. pose proof (sc_1 _ _ _ Sc) as G1. destruct b.
  - destruct (Hb eq_refl) as (-> & E). rewrite E in Hx. pose proof (proj1 Hx) as Lx.
    assert (N : forall i, (i < n)%nat -> finite (nth i w fzero) /\ Rabs (at_ w i) <= Gb /\ Rabs (at_ w i - at_ v i * at_ x i) <= u d * Rabs (at_ v i * at_ x i) + half_tiny d).
    { intros i Hi. unfold w, prod. rewrite nth_zip by lia. destruct (H i Hi) as (F1 & B1 & _), (nth_vector _ _ _ i Hx Hi) as (F2 & B2). apply (LossFloatProofs10.mul_near d _ _ 1 Gb Gb); auto; [apply Rabs_le; lra|apply (sc_G _ _ _ Sc)|lra]. }
    split; [apply vector_nth; [unfold w, prod; rewrite zip_length; lia|intros i Hi; destruct (N i Hi) as (N1 & N2 & _); auto]|].
    intros i Hi. destruct (H i Hi) as (F1 & B1 & E1), (N i Hi) as (_ & _ & N3). exists (at_ v i). auto.
  - split; [apply vector_nth; [exact L|intros i Hi; destruct (H i Hi) as (F1 & B1 & _); split; [exact F1|apply Rabs_le; unfold w; lra]]|]. intros i Hi. destruct (H i Hi) as (F1 & B1 & E1). exists (at_ v i). auto.
Qed.
Lemma lstm_ok (g : lstm d) (xs : list vec) : good_gate k n B Gb (InG g) -> good_gate k n B Gb (OutG g) -> good_gate k n B Gb (ForG g) -> good_gate k n B Gb (CandG g) ->
  (Refined g = true -> k = n /\ B = Gb) -> Forall (vector_in k B) xs ->
  let ss := lstm_forward m d dot vexp g xs in length ss = length xs /\ Forall (lstm_in n Gb M) ss /\ (tanh_accurate m -> steps (lstm_step k n g) None xs ss).
Proof.
  intros Q1 Q2 Q3 Q4 Hr Fx ss. pose proof (sc_1 _ _ _ Sc) as G1. assert (G0 : 0 <= Gb) by lra.
  destruct (run_steps (lstm_next m d dot vexp g) (vector_in k B) (lstm_in n Gb M) (fun s x s' => tanh_accurate m -> lstm_step k n g s x s')) with (xs := xs) (t := 0%nat) (s := @None (lstm_state d)) as (L & F & St).
  - intros t s x Hs Hx. set (s' := lstm_next m d dot vexp g t s x). set (y := option_map lY s).
    assert (Ey : (match s with None => None | Some s => Some (lY s) end) = y) by (unfold y; destruct s; reflexivity).
    assert (Hy : before d n Gb y). { unfold y. destruct s as [s|]; [|exact I]. apply (Hs s eq_refl). }
    assert (Hc : match s with None => True | Some s => vector_in n M (lCell s) end). { destruct s as [s|]; [|exact I]. apply (Hs s eq_refl). }
    destruct (sigmoid_gate d dot D k n B Gb (InG g) HB G0 Q1 Nk Nn m G c t 0 x y Hx Hy) as (L1 & H1).
    destruct (sigmoid_gate d dot D k n B Gb (OutG g) HB G0 Q2 Nk Nn m G c t 1 x y Hx Hy) as (L2 & H2).
    destruct (sigmoid_gate d dot D k n B Gb (ForG g) HB G0 Q3 Nk Nn m G c t 2 x y Hx Hy) as (L3 & H3).
    destruct (tanh_gate d dot D k n B Gb (CandG g) HB G0 Q4 Nk Nn m G t 3 x y Hx Hy) as (V4 & H4).
    destruct (refined_ok (Refined g) _ x _ _ Hr Hx L1 H1) as (V1 & R1). destruct (refined_ok (Refined g) _ x _ _ Hr Hx L2 H2) as (V2 & R2).
    assert (E1 : lIn s' = if Refined g then prod d (sigmoid d vexp (affine d dot t 0 (InG g) x y)) x else sigmoid d vexp (affine d dot t 0 (InG g) x y)) by (unfold s', lstm_next; cbn [lIn]; rewrite Ey; reflexivity).
    assert (E2 : lOut s' = if Refined g then prod d (sigmoid d vexp (affine d dot t 1 (OutG g) x y)) x else sigmoid d vexp (affine d dot t 1 (OutG g) x y)) by (unfold s', lstm_next; cbn [lOut]; rewrite Ey; reflexivity).
    assert (E3 : lFor s' = sigmoid d vexp (affine d dot t 2 (ForG g) x y)) by (unfold s', lstm_next; cbn [lFor]; rewrite Ey; reflexivity).
    assert (E4 : lCand s' = tanh_op m d (affine d dot t 3 (CandG g) x y)) by (unfold s', lstm_next; cbn [lCand]; rewrite Ey; reflexivity).
    rewrite <- E1 in V1, R1. rewrite <- E2 in V2, R2. rewrite <- E3 in L3, H3. rewrite <- E4 in V4, H4.
    assert (E5 : lCell s' = match s with None => prod d (lIn s') (lCand s') | Some s => add d (prod d (lIn s') (lCand s')) (prod d (lFor s') (lCell s)) end) by (unfold s', lstm_next; cbn [lCell lIn lCand lFor]; reflexivity).
    assert (E6 : lY s' = prod d (lOut s') (tanh_op m d (lCell s'))) by (unfold s', lstm_next; cbn [lCell lOut lY]; reflexivity).
    clear E1 E2 E3 E4 L1 H1 L2 H2. clearbody s'.
    assert (HC : length (lCell s') = n /\ forall i, (i < n)%nat -> finite (nth i (lCell s') fzero) /\ Rabs (at_ (lCell s') i) <= M /\
      let a := at_ (lIn s') i * at_ (lCand s') i in let b := match s with None => 0 | Some s => at_ (lFor s') i * at_ (lCell s) i end in Rabs (at_ (lCell s') i - (a + b)) <= 3 * u d * (Rabs a + Rabs b) + 3 * half_tiny d).
    { pose proof (proj1 V1) as l1. pose proof (proj1 V4) as l4. rewrite E5. clear E5 E6. destruct s as [s|].
      - pose proof (proj1 Hc) as lc. unfold add, prod. split; [repeat apply zip_len; lia|]. intros i Hi. rewrite !nth_zip by (rewrite ?(zip_len _ _ _ n) by lia; lia).
        destruct (nth_vector _ _ _ i V1 Hi) as (F1 & B1), (nth_vector _ _ _ i V4 Hi) as (F2 & B2), (H3 i Hi) as (F3 & B3 & _), (nth_vector _ _ _ i Hc Hi) as (F4 & B4). exact (cell_elem d _ _ _ _ Gb M Sc F1 F2 F3 F4 B1 B2 B3 B4).
      - unfold prod. split; [rewrite zip_length; lia|]. intros i Hi. rewrite nth_zip by lia. destruct (nth_vector _ _ _ i V1 Hi) as (F1 & B1), (nth_vector _ _ _ i V4 Hi) as (F2 & B2). exact (cell_first d _ _ Gb M Sc F1 F2 B1 B2). }
    destruct HC as (LC & HC). assert (VC : vector_in n M (lCell s')) by (apply vector_nth; [exact LC|intros i Hi; destruct (HC i Hi) as (F1 & B1 & _); auto]).
    destruct (tanh_op_ok d m G (lCell s') (vector_finite d _ _ _ VC)) as (Vt & Ht). rewrite LC in Vt, Ht.
    assert (HYn : length (lY s') = n /\ forall i, (i < n)%nat -> finite (nth i (lY s') fzero) /\ Rabs (at_ (lY s') i) <= Gb /\ (tanh_accurate m -> Rabs (at_ (lY s') i - at_ (lOut s') i * tanh (at_ (lCell s') i)) <= 12 * u d * Rabs (at_ (lOut s') i) + half_tiny d)).
    { pose proof (proj1 V2) as l2. pose proof (proj1 Vt) as lt. rewrite E6. unfold prod. split; [rewrite zip_length; lia|]. intros i Hi. rewrite nth_zip by lia.
      destruct (nth_vector _ _ _ i V2 Hi) as (F1 & B1), (nth_vector _ _ _ i Vt Hi) as (F2 & B2). destruct (out_elem d _ _ Gb (tanh (at_ (lCell s') i)) (sc_G _ _ _ Sc) F1 F2 B1 B2) as (A & C & E). split; [exact A|]. split; [exact C|]. intros T. exact (E (Ht T i Hi)). }
    destruct HYn as (LY & HYn). split.
    + split; [exact V1|]. split; [exact V2|]. split; [apply vector_nth; [exact L3|intros i Hi; destruct (H3 i Hi) as (F1 & B1 & _); split; [exact F1|apply Rabs_le; lra]]|]. split; [exact V4|]. split; [exact VC|].
      apply vector_nth; [exact LY|]. intros i Hi. destruct (HYn i Hi) as (F1 & B1 & _). auto.
    + intros T. unfold lstm_step. cbv zeta. fold y. intros i Hi. split; [exact (R1 i Hi)|]. split; [exact (R2 i Hi)|]. split; [destruct (H3 i Hi) as (_ & B3 & E3); exists (at_ (lFor s') i); auto|]. split; [exact (H4 T i Hi)|].
      split; [apply (HC i Hi)|]. apply (HYn i Hi). exact T.
  - discriminate.
  - exact Fx.
  - split; [exact L|]. split; [exact F|]. intros T. exact (steps_impl _ _ _ T _ _ St).
Qed.
End Net.
