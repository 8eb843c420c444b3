(** * Softmax and Sigmoid on amd64: what the methods compute, value by value *)
From Coq Require Import ZArith String Bool Lia List Arith.
From Flocq Require Import Core BinarySingleNaN.
From Verif Require Import AsmModel AsmCode AsmCalls AsmSpec FloatModel FloatSpec FloatProofs NumModel AsmFloat AsmWords AsmWordsSpec AsmExp AsmProofs7 PropsAsm SoftModel.
From Verif Require SoftSpec ArithModel.
Import ListNotations.
Local Open Scope list_scope.
Local Open Scope nat_scope.

Section Values.
Variable d : dtype.
Notation A := (lanes_at d).
Notation es := (GemCalls.esize_of d).
Notation hf := (GemCalls.half_of d).
Notation memory := (Z -> option (lane A)).
Notation held := SoftSpec.held.
Notation only := (SoftSpec.only d).

Lemma dec_enc (v : val d) : dec (enc v) = v.
Proof. destruct d; [apply decode_encode|reflexivity]. Qed.
Lemma lift : forall (l : list (val d)) (m : memory) a, held m a l -> exists lw, slice A es m a lw /\ map dec lw = l.
Proof.
  induction l as [|v l IH]; intros m a H; [exists []; split; [intros [|i] x E; discriminate|reflexivity]|].
  destruct (H 0 v eq_refl) as (w & E & D). destruct (IH m (a + es)%Z) as (lw & S & M).
  { intros i x E'. destruct (H (S i) x E') as (w' & E1 & D1). exists w'. split; [|exact D1]. rewrite <- E1. f_equal. lia. }
  exists (w :: lw). split; [|cbn; congruence]. intros [|i] x E'; cbn in E'; [injection E' as <-; exact E|]. rewrite <- (S i x E'). f_equal. lia.
Qed.
Lemma exists_cells : forall n (m : memory) y, (forall j, j < n -> m (y + es * Z.of_nat j)%Z <> None) -> exists ly, length ly = n /\ slice A es m y ly.
Proof.
  induction n as [|n IH]; intros m y H; [exists []; split; [reflexivity|intros [|i] x E; discriminate]|].
  destruct (m y) as [w|] eqn:E; [|exfalso; apply (H 0); [lia|]; rewrite <- E; f_equal; lia].
  destruct (IH m (y + es)%Z) as (ly & L & S). { intros j Hj N. apply (H (S j)); [lia|]. rewrite <- N. f_equal. lia. }
  exists (w :: ly). split; [cbn; lia|]. intros [|i] x E'; cbn in E'; [injection E' as <-; rewrite <- E; f_equal; lia|]. rewrite <- (S i x E'). f_equal. lia.
Qed.
Lemma held_cells (m : memory) y (l : list (val d)) : held m y l -> forall j, j < length l -> m (y + es * Z.of_nat j)%Z <> None.
Proof. intros H j Hj. destruct (nth_error l j) as [v|] eqn:E; [|apply nth_error_None in E; lia]. destruct (H j v E) as (w & -> & _). discriminate. Qed.
Lemma only_trans m1 m2 m3 y n : only m1 m2 y n -> only m2 m3 y n -> only m1 m3 y n.
Proof. intros H K p N. rewrite K, H; auto. Qed.
Lemma same_self a n : same_or_apart es a a n.
Proof. intros i j _ _ E. assert (0 < es)%Z by (destruct d; reflexivity). nia. Qed.

Lemma add_enc a (k : val d) : bin A Add a (enc k) = enc (fadd (dec a) k).
Proof. revert a k. unfold lanes_at, enc, dec. destruct d; intros a k; [|reflexivity]. cbn [bin words]. unfold arith. now rewrite decode_encode. Qed.
Lemma mul_enc a (k : val d) : bin A Mul a (enc k) = enc (fmul (dec a) k).
Proof. revert a k. unfold lanes_at, enc, dec. destruct d; intros a k; [|reflexivity]. cbn [bin words]. unfold arith. now rewrite decode_encode. Qed.
Lemma add_dec (a b : lane A) : dec (bin A Add a b) = fadd (dec a) (dec b).
Proof. revert a b. unfold lanes_at, dec. destruct d; intros a b; [|reflexivity]. cbn [bin words]. unfold arith. apply decode_encode. Qed.
Lemma add_comm_A (a b : lane A) : bin A Add a b = bin A Add b a.
Proof. revert a b. unfold lanes_at. destruct d; intros a b; [apply add_comm_w|apply fadd_comm]. Qed.
Lemma mul_comm_A (a b : lane A) : bin A Mul a b = bin A Mul b a.
Proof. revert a b. unfold lanes_at. destruct d; intros a b; [apply mul_comm_w|apply fmul_comm]. Qed.
Lemma sum_dec v lw : sum_of A v lw -> sum_of (floats d) (dec v) (map dec lw).
Proof.
  intros H. induction H as [|x|a b l k m H1 IH1 H2 IH2 P].
  - replace (dec (zero A)) with (zero (floats d)); [constructor|]. unfold lanes_at, dec. destruct d; [|reflexivity]. cbn [zero words floats]. symmetry. apply zero_w_eq.
  - constructor.
  - rewrite add_dec. eapply (sum_add (floats d)); [exact IH1|exact IH2|]. rewrite <- map_app. now apply Permutation.Permutation_map.
Qed.

Section Kernels.
Variable c : cpu.
Lemma add_const_computes : computes1 A es hf (AddConst d c) (bin A Add).
Proof. destruct (C61_add_const A c add_comm_A) as (H1 & H2). unfold AddConst. destruct d; assumption. Qed.
Lemma mul_const_computes : computes1 A es hf (MulConst d c) (bin A Mul).
Proof. destruct (C61_mul_const A c mul_comm_A) as (H1 & H2). unfold MulConst. destruct d; assumption. Qed.
Lemma sum_computes : computes_sum A es hf (SumConst d c).
Proof. destruct (C62_sum A c) as (H1 & H2). unfold SumConst. destruct d; assumption. Qed.

Lemma const_ok f op' (op : val d -> val d -> val d) (k : val d) x y l (m : memory) (Q : memory -> Prop) :
  computes1 A es hf f op' -> (forall a, op' a (enc k) = enc (op (dec a) k)) ->
  held m x l -> (forall j, j < length l -> m (y + es * Z.of_nat j)%Z <> None) -> same_or_apart es x y (length l) ->
  (forall m', held m' y (map (fun v => op v k) l) -> only m m' y (length l) -> Q m') -> const_call d f k x y (length l) m Q.
Proof.
  intros Cf Eop H C Ap K st Em. destruct (lift l m x H) as (lw & S & M). destruct (exists_cells _ m y C) as (ly & Ly & Sy). subst l m. rewrite map_length in *.
  edestruct (Cf (mkFrame A (GemCalls.frame [("x_base"%string, x); ("x_len"%string, Z.of_nat (length lw)); ("y_base"%string, y); ("y_len"%string, Z.of_nat (length lw))]) (fun _ => enc k)) st x y (enc k) lw ly) as (st' & R & V & O); try reflexivity; try assumption.
  exists st'. split; [exact R|]. apply K; [|exact O].
  intros i v E. rewrite map_map in E. rewrite nth_error_map in E. destruct (nth_error lw i) as [a|] eqn:Ea; [|discriminate]. cbn [option_map] in E. injection E as <-.
  eexists. split; [apply V; exact Ea|]. rewrite Eop. apply dec_enc.
Qed.
Lemma add_const_ok (k : val d) x y l (m : memory) (Q : memory -> Prop) :
  held m x l -> (forall j, j < length l -> m (y + es * Z.of_nat j)%Z <> None) -> same_or_apart es x y (length l) ->
  (forall m', held m' y (map (fun v => fadd v k) l) -> only m m' y (length l) -> Q m') -> const_call d (AddConst d c) k x y (length l) m Q.
Proof. apply (const_ok _ (bin A Add) fadd); [apply add_const_computes|intros a; apply add_enc]. Qed.
Lemma mul_const_ok (k : val d) x y l (m : memory) (Q : memory -> Prop) :
  held m x l -> (forall j, j < length l -> m (y + es * Z.of_nat j)%Z <> None) -> same_or_apart es x y (length l) ->
  (forall m', held m' y (map (fun v => fmul v k) l) -> only m m' y (length l) -> Q m') -> const_call d (MulConst d c) k x y (length l) m Q.
Proof. apply (const_ok _ (bin A Mul) fmul); [apply mul_const_computes|intros a; apply mul_enc]. Qed.
Lemma sum_ok x l (m : memory) (Q : val d -> memory -> Prop) : held m x l -> (x mod es = 0)%Z ->
  (forall s, sum_of (floats d) s l -> Q s m) -> sum_call d c x (length l) m Q.
Proof.
  intros H Al K st Em. destruct (lift l m x H) as (lw & S & M). subst l m. rewrite map_length.
  edestruct (sum_computes (mkFrame A (GemCalls.frame [("x_base"%string, x); ("x_len"%string, Z.of_nat (length lw))]) (fun _ => zero A)) st x lw) as (st' & v & R & Ev & Sv & Em); try reflexivity; try assumption.
  exists st', v. split; [exact R|]. split; [exact Ev|]. rewrite Em. apply K. now apply sum_dec.
Qed.
End Kernels.

Lemma map_loop_ok f y : forall k i (m : memory) l, held m y l -> i + k = length l ->
  exists m', map_loop d f y y i k m = Some m' /\ held m' y (firstn i l ++ map f (skipn i l)) /\ only m m' y (length l).
Proof.
  assert (P : (0 < es)%Z) by (destruct d; reflexivity).
  induction k as [|k IH]; intros i m l H L.
  - exists m. split; [reflexivity|]. split; [|intros p _; reflexivity]. rewrite skipn_all2, app_nil_r, firstn_all2 by lia. exact H.
  - cbn [map_loop]. destruct (nth_error l i) as [v|] eqn:E; [|apply nth_error_None in E; lia]. destruct (H i v E) as (w & Ew & Dw). rewrite Ew, Dw.
    set (m1 := fun p => if Z.eqb p (y + es * Z.of_nat i)%Z then Some (enc (f v)) else m p).
    assert (L1 : length (firstn i l ++ f v :: skipn (S i) l) = length l) by (rewrite app_length, firstn_length; cbn [length]; rewrite skipn_length; lia).
    destruct (IH (S i) m1 (firstn i l ++ f v :: skipn (S i) l)) as (m' & Em & Hm & O); [|lia|].
    + intros j x Ex. unfold m1. destruct (Z.eqb_spec (y + es * Z.of_nat j) (y + es * Z.of_nat i)) as [Q'|Q'].
      * assert (j = i) by nia. subst j. exists (enc (f v)). split; [reflexivity|]. rewrite dec_enc. rewrite nth_error_app2 in Ex by (rewrite firstn_length; lia).
        rewrite firstn_length, Nat.min_l, Nat.sub_diag in Ex by lia. cbn in Ex. congruence.
      * apply H. assert (j <> i) by (intros ->; lia). destruct (Nat.lt_ge_cases j i) as [Hj|Hj].
        -- rewrite nth_error_app1 in Ex by (rewrite firstn_length; lia). rewrite <- Ex. clear - Hj. revert l i Hj. induction j; intros [|a l] [|i] Hj; cbn; try lia; try reflexivity. apply IHj. lia.
        -- rewrite nth_error_app2 in Ex by (rewrite firstn_length; lia). rewrite firstn_length, Nat.min_l in Ex by lia. destruct (j - i) as [|q] eqn:Ej; [lia|]. cbn [nth_error] in Ex.
           rewrite <- Ex. replace j with (S i + q) by lia. generalize (S i). clear. intros n. revert l. induction n; intros [|a l]; cbn; auto. destruct q; reflexivity.
    + exists m'. split; [exact Em|]. split.
      * replace (firstn i l ++ map f (skipn i l)) with (firstn (S i) (firstn i l ++ f v :: skipn (S i) l) ++ map f (skipn (S i) (firstn i l ++ f v :: skipn (S i) l))); [exact Hm|].
        assert (Ls : length (firstn i l) = i) by (rewrite firstn_length; lia).
        replace (S i) with (i + 1) by lia. rewrite <- Ls at 1. rewrite firstn_app_2. rewrite skipn_app, Ls. replace (i + 1 - i) with 1 by lia. rewrite (skipn_all2 (firstn i l)) by lia. cbn [firstn skipn app].
        rewrite <- app_assoc. f_equal. cbn [app]. replace (i + 1) with (S i) by lia.
        replace (skipn i l) with (v :: skipn (S i) l); [reflexivity|]. clear - E. revert i E. induction l as [|a l IH]; intros [|i] E; cbn in *; try discriminate; [congruence|now apply IH].
      * rewrite L1 in O. intros p Hp. rewrite O by exact Hp. unfold m1. destruct (Z.eqb_spec p (y + es * Z.of_nat i)) as [->|_]; [|reflexivity]. exfalso. apply Hp. exists i. split; [lia|reflexivity].
Qed.
Lemma max_loop_ok x (m : memory) : forall l i mx, held m x l -> i <= length l -> max_loop d x i (length l - i) m mx = Some (ArithModel.max_loop flt mx (skipn i l)).
Proof.
  intros l i mx H. remember (length l - i) as k eqn:Ek. revert i mx Ek. induction k as [|k IH]; intros i mx Ek L; cbn [max_loop].
  - rewrite skipn_all2 by lia. reflexivity.
  - destruct (nth_error l i) as [v|] eqn:E; [|apply nth_error_None in E; lia]. destruct (H i v E) as (w & Ew & Dw). rewrite Ew, Dw, IH by lia.
    replace (skipn i l) with (v :: skipn (S i) l); [reflexivity|]. clear - E. revert i E. induction l as [|a l IH]; intros [|i] E; cbn in *; try discriminate; [congruence|now apply IH].
Qed.
End Values.

(** one exponential, of the element at index i of n *)
Definition exp_value (g : libm) (d : dtype) (c : cpu) (i n : nat) : val d -> val d -> Prop :=
  match d return val d -> val d -> Prop with
  | F32 => fun t e => exists w, decode w = t /\ e = decode (if i <? whole (width c) n then lane_function (ExpKernel32 c) w else scalar (Exp g) w)
  | F64 => fun t e => e = Exp g t
  end.
Definition exps (g : libm) (d : dtype) (c : cpu) (ts es : list (val d)) : Prop :=
  length es = length ts /\ forall i t e, nth_error ts i = Some t -> nth_error es i = Some e -> exp_value g d c i (length ts) t e.
Lemma exp_ok g d c y (m : Z -> option (lane (lanes_at d))) (ts : list (val d)) (Q : _ -> Prop) : SoftSpec.held m y ts ->
  (forall m' es, exps g d c ts es -> SoftSpec.held m' y es -> SoftSpec.only d m m' y (length ts) -> Q m') -> exp_call g d c y y (length ts) m Q.
Proof.
  intros H K. destruct (lift d ts m y H) as (lw & S & M). pose proof (held_cells d m y ts H) as C. pose proof (same_self d y (length ts)) as Ap. unfold exp_call. revert m ts Q H K lw S M C Ap.
  destruct d; intros m ts Q H K lw S M C Ap.
  - subst ts. rewrite map_length in *. destruct (exp32_ok (Exp g) c y y lw m S C Ap) as (E & V). split; [exact E|]. intros m' R. destruct (V m' R) as (V1 & V2).
    assert (X : exists es, length es = length lw /\ forall i a, nth_error lw i = Some a -> nth_error es i = Some (decode (if i <? whole (width c) (length lw) then lane_function (ExpKernel32 c) a else scalar (Exp g) a))).
    { exists (map (fun p => decode (if fst p <? whole (width c) (length lw) then lane_function (ExpKernel32 c) (snd p) else scalar (Exp g) (snd p))) (combine (seq 0 (length lw)) lw)).
      split; [rewrite map_length, combine_length, seq_length; lia|]. intros i a Ea. assert (Hi : i < length lw) by (apply nth_error_Some; cbn [lane words lanes_at] in *; congruence).
      rewrite nth_error_map. assert (X : nth_error (combine (seq 0 (length lw)) lw) i = Some (i, a)).
      { clear - Ea. change i with (0 + i) at 2. generalize 0 at 1 2. revert i Ea. induction lw as [|b lw IH]; intros [|i] Ea q; cbn in *; try discriminate; [injection Ea as ->; do 2 f_equal; lia|]. rewrite IH by exact Ea. do 2 f_equal. lia. }
      match goal with |- option_map ?f _ = _ => exact (f_equal (option_map f) X) end. }
    destruct X as (e & Le & Ve). apply (K m' e); [|..].
    + split; [now rewrite map_length|]. intros i t e0 Et Ee. rewrite nth_error_map in Et. destruct (nth_error lw i) as [a|] eqn:Ea; [|discriminate]. cbn in Et. injection Et as <-.
      rewrite (Ve i a Ea) in Ee. injection Ee as <-. exists a. split; [reflexivity|]. rewrite map_length. reflexivity.
    + intros i v Ev. assert (Hi : i < length e) by (apply nth_error_Some; congruence). destruct (nth_error lw i) as [a|] eqn:Ea; [|apply nth_error_None in Ea; cbn [lane words lanes_at] in *; lia].
      rewrite (Ve i a Ea) in Ev. injection Ev as <-. eexists. split; [apply V1; exact Ea|reflexivity].
    + exact V2.
  - destruct (map_loop_ok F64 (Exp g) y (length ts) 0 m ts H eq_refl) as (m' & E & Hm & O). exists m'. split; [exact E|]. apply (K m' (map (Exp g) ts)).
    + split; [apply map_length|]. intros i t e Et Ee. rewrite nth_error_map, Et in Ee. cbn in Ee. cbn [exp_value]. congruence.
    + exact Hm.
    + exact O.
Qed.

(** float32(-float64(max)) *)
Lemma conv_neg d (x : val d) : conv F64 d (fneg (conv d F64 x)) = fneg x.
Proof.
  assert (E : fneg (conv d F64 x) = conv d F64 (fneg x)); [|rewrite E; apply conv_back; destruct d; exact I].
  destruct d; [|now rewrite !conv_same]. destruct x as [s|s| |s m e H]; try reflexivity.
  set (x := B754_finite s m e H : val F32).
  destruct (conv_wide F32 F64 x I eq_refl) as (F1 & V1 & S1). destruct (conv_wide F32 F64 (fneg x) I eq_refl) as (F2 & V2 & S2).
  apply B2R_Bsign_inj.
  - unfold fneg. now rewrite is_finite_Bopp.
  - exact F2.
  - unfold fneg in *. rewrite B2R_Bopp, V1, V2, B2R_Bopp. reflexivity.
  - unfold fneg in *. rewrite Bsign_Bopp by (destruct (conv F32 F64 x); try reflexivity; discriminate). rewrite S1, S2. reflexivity.
Qed.

Theorem softmax_run g d c x y (v : val d) vs (m : Z -> option (lane (lanes_at d))) (Q : _ -> Prop) :
  let l := v :: vs in let mx := ArithModel.max_loop flt v vs in
  SoftSpec.held m x l -> SoftSpec.room d m x y (length l) ->
  (forall m' es s, exps g d c (map (fun w => fadd w (fneg mx)) l) es -> sum_of (floats d) s es -> SoftSpec.held m' y (map (fun e => fmul e (fdiv fone s)) es) -> SoftSpec.only d m m' y (length l) -> Q m') ->
  softmax g d c x y (length l) m Q.
Proof.
  intros l mx H (Al & C & Ap) K. unfold softmax. change (length l) with (S (length vs)) at 1. cbv match. destruct (H 0 v eq_refl) as (w & Ew & Dw). rewrite Z.mul_0_r, Z.add_0_r in Ew.
  exists w, mx. split; [exact Ew|]. rewrite Dw. split. { pose proof (max_loop_ok d x m l 1 v H ltac:(cbn; lia)) as E. cbn [length skipn l] in E. rewrite Nat.sub_succ, Nat.sub_0_r in E. exact E. }
  change (S (length vs)) with (length l). rewrite conv_neg. apply add_const_ok; [exact H|exact C|intros i j Hi Hj E; exfalso; now apply (Ap i j)|]. intros m1 H1 O1.
  assert (L1 : length (map (fun w => fadd w (fneg mx)) l) = length l) by apply map_length. rewrite <- L1 at 1. apply exp_ok; [exact H1|]. intros m2 e Ee H2 O2. rewrite L1 in O2.
  assert (L2 : length e = length l) by (destruct Ee as (E & _); congruence). rewrite <- L2. apply sum_ok; [exact H2|exact Al|]. intros s Ss.
  rewrite conv_back by (destruct d; exact I). apply mul_const_ok; [exact H2|apply held_cells; exact H2|apply same_self|]. intros m3 H3 O3. apply (K m3 e s); auto. rewrite L2 in O3. eapply only_trans; [|exact O3]. eapply only_trans; [exact O1|exact O2].
Qed.
Theorem sigmoid_run g d c x y (l : list (val d)) (m : Z -> option (lane (lanes_at d))) (Q : _ -> Prop) :
  SoftSpec.held m x l -> SoftSpec.room d m x y (length l) -> 
  (forall m' es, exps g d c (map (fun w => fmul w (conv F64 d (lit (-1) 0))) l) es -> SoftSpec.held m' y (map (fun e => fdiv fone (fadd fone e)) es) -> SoftSpec.only d m m' y (length l) -> Q m') ->
  sigmoid g d c x y (length l) m Q.
Proof.
  intros H (Al & C & Ap) K. unfold sigmoid. destruct l as [|v l0].
  { apply (K m []); [split; [reflexivity|intros [|i] t e E; discriminate]|intros [|i] t E; discriminate|intros p _; reflexivity]. }
  set (l := v :: l0) in *. change (length l) with (S (length l0)) at 1. cbv match. change (S (length l0)) with (length l).
  apply mul_const_ok; [exact H|exact C|intros i j Hi Hj E; exfalso; now apply (Ap i j)|]. intros m1 H1 O1. set (ts := map _ l) in *.
  assert (L1 : length ts = length l) by apply map_length. rewrite <- L1 at 1. apply exp_ok; [exact H1|]. intros m2 e Ee H2 O2. rewrite L1 in O2.
  assert (L2 : length e = length l) by (destruct Ee as (E & _); congruence).
  destruct (map_loop_ok d (fun v => fdiv fone (fadd fone v)) y (length e) 0 m2 e H2 eq_refl) as (m3 & E3 & H3 & O3). exists m3. rewrite <- L2. split; [exact E3|]. apply (K m3 e); auto. rewrite L2 in O3. eapply only_trans; [|exact O3]. eapply only_trans; [exact O1|exact O2].
Qed.
