(** * Proofs: softmax, log-sum-exp and sigmoid in floating point *)
From Coq Require Import List ZArith Bool Reals Lia Lra.
From Flocq Require Import Core BinarySingleNaN.
From Verif Require Import DenseModel DenseLemmas DenseProofs ArithModel ArithProofs FloatModel FloatSpec FloatProofs NumModel NumSpec NumLemmas.
Import ListNotations.
Open Scope R_scope.

Lemma map_seq_nth {A B} (g : A -> B) (l : list A) z : map (fun p => g (nth p l z)) (seq 0 (length l)) = map g l.
Proof.
  apply nth_ext. intros k. rewrite !nth_map, nth_seq. destruct (Nat.ltb_spec k (length l)) as [L|L]; cbn [option_map Nat.add].
  - now rewrite (nth_error_nth' l z L).
  - apply nth_error_None in L. now rewrite L.
Qed.
Lemma unary_data {T} (z : T) f x : data (mat_unary z f x) = map f (data x).
Proof. unfold mat_unary. cbn [data]. rewrite (loop_all z (fun i _ => f (nth i (data x) z))); [apply map_seq_nth|reflexivity|now rewrite repeat_length]. Qed.
Lemma const_data {T} (z : T) op x c : data (mat_const z op x c) = map (fun v => op v c) (data x).
Proof. unfold mat_const, const_kernel. cbn [data]. rewrite (loop_all z (fun i _ => op (nth i (data x) z) c)); [apply (map_seq_nth (fun v => op v c))|reflexivity|now rewrite repeat_length]. Qed.
Lemma const_in_data {T} (z : T) op x c : data (mat_const_in_place z op x c) = map (fun v => op v c) (data x).
Proof. unfold mat_const_in_place, const_kernel_in_place. cbn [data]. rewrite (loop_all z (fun i v => op v c)) by reflexivity. apply (map_seq_nth (fun v => op v c)). Qed.
Lemma sigmoid_data {T} (z one : T) add mul div opp e x : data (mat_sigmoid z one add mul div opp e x) = map (fun v => div one (add one (e (mul v (opp one))))) (data x).
Proof.
  unfold mat_sigmoid. cbn [data]. rewrite (loop_all z (fun i v => div one (add one v))) by reflexivity. rewrite (map_seq_nth (fun v => div one (add one v))).
  rewrite (loop_all z (fun i v => e v)) by reflexivity. rewrite (map_seq_nth e), const_data, !map_map. reflexivity.
Qed.
Lemma vector_transposed {T} (x : dense T) : is_vector x = true -> cols x <> 1%nat -> transpose_in_place x = Some (mkDense (cols x) (rows x) (data x)).
Proof.
  unfold is_vector, transpose_in_place. intros V N. apply orb_true_iff in V as [V|V]; apply Nat.eqb_eq in V; [|contradiction]. rewrite V.
  now rewrite Nat.eqb_refl, orb_true_r.
Qed.

(** the maximum of finite values *)
Lemma max_finite d (vs : list (val d)) : forall v, Forall finite (v :: vs) -> let mx := max_loop flt v vs in In mx (v :: vs) /\ forall x, In x (v :: vs) -> real x <= real mx.
Proof.
  induction vs as [|w vs IH]; intros v F; cbn [max_loop fold_left].
  - split; [now left|]. intros x [<-|[]]. lra.
  - inversion F as [|? ? Fv F']; subst. inversion F' as [|? ? Fw F'']; subst. fold (max_loop flt (if flt v w then w else v) vs).
    destruct (flt v w) eqn:E.
    + destruct (IH w F') as (I & M). split; [now right|]. intros x [<-|H]; [|now apply M]. apply lt_eq in E; auto. specialize (M w (or_introl eq_refl)). lra.
    + destruct (IH v) as (I & M); [now constructor|]. apply lt_false in E; auto. split.
      * destruct I as [I|I]; [left|right; right]; exact I.
      * intros x [<-|[<-|H]]; [apply M; now left| |apply M; now right]. specialize (M v (or_introl eq_refl)). lra.
Qed.

Section M.
Variable m : libm.
Hypothesis G : go_math m.
Variable d : dtype.

(** exp of something at most zero, also after an overflow of the difference *)
Lemma exp_elem_le x : is_nan x = false -> (finite x -> real x <= 0) -> (x = minus_infinity \/ finite x) -> finite (exp_elem m d x) /\ 0 <= real (exp_elem m d x) <= 1.
Proof.
  intros N L [->|F].
  - unfold exp_elem. change (conv d F64 minus_infinity) with (minus_infinity : val F64). rewrite (exp_minus_infinity m G). cbn. split; [reflexivity|]. unfold real. cbn. lra.
  - specialize (L F). unfold exp_elem. destruct (conv_up d x F) as (F1 & V1). rewrite <- V1 in L.
    assert (F2 : finite (Exp m (conv d F64 x))) by (apply (exp_finite m G); auto; lra).
    destruct (conv_in F64 d (Exp m (conv d F64 x)) 0 1 F2 (rep_0 d) (rep_1 d)) as (F3 & B & _); [|auto].
    split; [now apply (exp_positive m G)|now apply (exp_below_one m G)].
Qed.
Lemma exp_elem_zero x : finite x -> real x = 0 -> real (exp_elem m d x) = 1.
Proof.
  intros F E. unfold exp_elem. destruct (conv_up d x F) as (F1 & V1). rewrite E in V1.
  assert (F2 : finite (Exp m (conv d F64 x))) by (apply (exp_finite m G); auto; lra).
  assert (B : real (Exp m (conv d F64 x)) = 1) by (apply Rle_antisym; [apply (exp_below_one m G)|apply (exp_above_one m G)]; auto; lra).
  destruct (conv_in F64 d (Exp m (conv d F64 x)) 1 1 F2 (rep_1 d) (rep_1 d)) as (_ & Q & _); lra.
Qed.
(** x - max *)
Lemma shifted (x mx : val d) : finite x -> finite mx -> real x <= real mx ->
  let y := fadd x (fneg mx) in is_nan y = false /\ (finite y -> real y <= 0) /\ (y = minus_infinity \/ finite y).
Proof.
  intros Fx Fm L y. pose proof (neg_finite d mx Fm) as Fn. split; [now apply add_number|].
  pose proof (@Bplus_correct (prec d) (emax d) (prec_pos d) (prec_emax d) mode_NE x (fneg mx) Fx Fn) as C. fold (fadd x (fneg mx)) in C. fold y in C.
  rewrite <- nearest_eq, <- limit_eq in C. fold (real x) (real (fneg mx)) in C. rewrite neg_eq in C.
  assert (N : nearest d (real x + - real mx) <= 0) by (rewrite <- (proj1 (rep_0 d)); apply nearest_le; lra).
  destruct (Rlt_bool_spec (Rabs (nearest d (real x + - real mx))) (limit d)) as [A|A].
  - destruct C as (V & F & _). split; [|now right]. intros _. unfold real. now rewrite V.
  - destruct C as (C & S). apply over_nan in C. split; [rewrite C; intros X; discriminate|]. left. rewrite C. f_equal.
    (* the sum of two numbers of the same sign, not above zero, and not zero *)
    assert (P : forall z : val d, finite z -> Bsign z = false -> 0 <= real z).
    { intros z Fz Sz. destruct z as [s| | |s mz ez Hz]; try discriminate; [unfold real; cbn; lra|]. cbn in Sz. subst s. unfold real, B2R. apply F2R_ge_0. cbn. lia. }
    destruct (Bsign x) eqn:Sx; [reflexivity|]. exfalso. symmetry in S. apply P in Sx; auto. apply P in S; auto. rewrite neg_eq in S.
    assert (E : real x + - real mx = 0) by lra. rewrite E, (proj1 (rep_0 d)), Rabs_R0, limit_eq in A. pose proof (bpow_gt_0 radix2 (emax d)). lra.
Qed.
Lemma shifted_zero (x : val d) : finite x -> finite (fadd x (fneg x)) /\ real (fadd x (fneg x)) = 0.
Proof.
  intros F. destruct (add_in d x (fneg x) 0 0 F (neg_finite d x F) (rep_0 d) (rep_0 d)) as (A & B & _); [rewrite neg_eq; lra|]. split; [assumption|lra].
Qed.

(** ** Sums of values between 0 and 1: they never exceed 2^prec *)
Definition cap (d : dtype) : R := bpow radix2 (prec d).
Lemma rep_cap : rep d (cap d).
Proof. unfold cap. apply rep_pow; destruct d; cbn; lia. Qed.
Lemma cap_saturates : nearest d (cap d + 1) = cap d.
Proof.
  assert (A : finite (lit 1 (prec d) : val d) /\ real (lit 1 (prec d) : val d) = cap d) by (apply lit_eq; [unfold cap; now rewrite Rmult_1_l|destruct d; cbn; lia..]).
  destruct A as (Fc & Vc). destruct (one_eq d) as (Fo & Vo).
  pose proof (@Bplus_correct (prec d) (emax d) (prec_pos d) (prec_emax d) mode_NE (lit 1 (prec d)) fone Fc Fo) as C.
  assert (E : @Bplus (prec d) (emax d) (prec_pos d) (prec_emax d) mode_NE (lit 1 (prec d)) fone = lit 1 (prec d)) by (apply B2SF_inj; destruct d; vm_compute; reflexivity).
  rewrite E in C. rewrite <- nearest_eq in C. fold (real (lit 1 (prec d) : val d)) (real (fone : val d)) in C. rewrite Vc, Vo in C.
  destruct (Rlt_bool _ _); [symmetry; apply C|]. destruct C as (C & _). exfalso. apply over_nan in C. unfold finite in Fc. rewrite C in Fc. discriminate.
Qed.
Lemma sum_bounds l : forall s : val d, finite s -> 0 <= real s <= cap d -> Forall (fun x : val d => finite x /\ 0 <= real x <= 1) l ->
  let r := fold_left fadd l s in finite r /\ real s <= real r <= cap d /\ forall x, In x l -> real x <= real r.
Proof.
  induction l as [|x l IH]; intros s Fs Bs F; cbn [fold_left].
  - split; [assumption|]. split; [lra|intros x []].
  - inversion F as [|? ? (Fx & Bx) F']; subst.
    assert (A : finite (fadd s x) /\ 0 <= real (fadd s x) <= cap d /\ real s <= real (fadd s x) /\ real x <= real (fadd s x)).
    { destruct (between d 0 (real s + real x) (cap d + 2)) as ((N & L) & _).
      - apply rep_0.
      - apply (rep_dyadic d (2 ^ (prec d - 1) + 1) 1); [|destruct d; cbn; lia..]. unfold cap. rewrite plus_IZR. change (bpow radix2 1) with 2. change 2%Z with (radix_val radix2). rewrite IZR_Zpower by (destruct d; cbn; lia).
        change (IZR radix2) with 2. assert (E : bpow radix2 (prec d) = bpow radix2 (prec d - 1) * 2) by (change 2 with (bpow radix2 1); rewrite <- bpow_plus; f_equal; lia). rewrite E. lra.
      - lra.
      - pose proof (@Bplus_correct (prec d) (emax d) (prec_pos d) (prec_emax d) mode_NE s x Fs Fx) as C. fold (fadd s x) in C. rewrite <- nearest_eq, <- limit_eq in C. fold (real s) (real x) in C.
        rewrite Rlt_bool_true in C by exact L. destruct C as (V & Fy & _). fold (real (fadd s x)) in V. rewrite V. split; [exact Fy|].
        assert (U : nearest d (real s + real x) <= cap d) by (rewrite <- cap_saturates; apply nearest_le; lra).
        assert (S1 : real s <= nearest d (real s + real x)) by (rewrite <- (proj1 (rep_real d s Fs)) at 1; apply nearest_le; lra).
        assert (S2 : real x <= nearest d (real s + real x)) by (rewrite <- (proj1 (rep_real d x Fx)) at 1; apply nearest_le; lra).
        lra. }
    destruct A as (Fa & Ba & S1 & S2). destruct (IH (fadd s x) Fa Ba F') as (Fr & Br & M). cbv zeta in *. split; [assumption|]. split; [lra|].
    intros y [<-|H]; [lra|now apply M].
Qed.

(** ** Softmax *)
Section Softmax.
Variables (v : val d) (vs : list (val d)).
Hypothesis F : Forall finite (v :: vs).
Notation mx := (max_loop flt v vs).
Notation es := (map (fun x => exp_elem m d (fadd x (fneg mx))) (v :: vs)).
Lemma mx_finite : finite mx.
Proof. destruct (max_finite d vs v F) as (I & _). pose proof F as F'. rewrite Forall_forall in F'. now apply F'. Qed.
Lemma exps_bounds : Forall (fun x : val d => finite x /\ 0 <= real x <= 1) es.
Proof.
  apply Forall_forall. intros y H. apply in_map_iff in H as (x & <- & Hx). destruct (max_finite d vs v F) as (_ & M). pose proof mx_finite as Fm. pose proof F as F'. rewrite Forall_forall in F'.
  destruct (shifted x mx (F' x Hx) Fm (M x Hx)) as (A & B & C). now apply exp_elem_le.
Qed.
Lemma exps_sum : let s := fold_left fadd es fzero in finite s /\ 1 <= real s <= cap d.
Proof.
  cbv zeta. destruct (sum_bounds es fzero eq_refl) as (Fs & Bs & Ms); [unfold real; cbn; pose proof (bpow_gt_0 radix2 (prec d)); unfold cap; lra|apply exps_bounds|].
  cbv zeta in *. split; [assumption|]. split; [|lra]. destruct (max_finite d vs v F) as (I & _).
  assert (E : In (exp_elem m d (fadd mx (fneg mx))) es) by (apply in_map_iff; exists mx; auto).
  apply Ms in E. destruct (shifted_zero mx mx_finite) as (A & B). rewrite exp_elem_zero in E by auto. exact E.
Qed.
Lemma inverse_bounds : let inv := conv F64 d (conv d F64 (fdiv fone (fold_left fadd es fzero))) in finite inv /\ / cap d <= real inv <= 1.
Proof.
  cbv zeta. destruct exps_sum as (Fs & Bs). destruct (one_eq d) as (Fo & Vo). rewrite conv_back by (destruct d; exact I).
  destruct (div_in d fone (fold_left fadd es fzero) (/ cap d) 1 Fo) as (A & B & _); [lra| | | |].
  - unfold cap. rewrite <- bpow_opp. apply rep_pow; destruct d; cbn; lia.
  - apply rep_1.
  - rewrite Vo. unfold Rdiv. rewrite Rmult_1_l. split; [apply Rinv_le_contravar; lra|]. rewrite <- Rinv_1. apply Rinv_le_contravar; lra.
  - auto.
Qed.
End Softmax.
Lemma softmax_data x v vs : is_vector x = true -> data x = v :: vs ->
  let mx := max_loop flt v vs in let es := map (fun x => exp_elem m d (fadd x (fneg mx))) (v :: vs) in
  let inv := conv F64 d (conv d F64 (fdiv fone (fold_left fadd es fzero))) in
  exists s, softmax m d x = Some s /\ rows s = (if (cols x =? 1)%nat then rows x else cols x) /\ cols s = (if (cols x =? 1)%nat then 1%nat else rows x) /\ data s = map (fun e => fmul e inv) es.
Proof.
  intros V E. cbv zeta. unfold softmax. rewrite V. cbn [negb]. unfold mat_max. rewrite E.
  rewrite conv_back by (destruct d; exact I). set (mx := max_loop flt v vs).
  set (o := sub_scalar fzero fadd fneg x mx).
  assert (Do : data o = map (fun x => fadd x (fneg mx)) (v :: vs)) by (unfold o, sub_scalar; now rewrite const_data, E).
  assert (Co : cols o = cols x) by reflexivity. assert (Ro : rows o = rows x) by reflexivity.
  set (o' := if (cols o =? 1)%nat then Some o else transpose_in_place o).
  assert (T : exists r c, o' = Some (mkDense r c (data o)) /\ r = (if (cols x =? 1)%nat then rows x else cols x) /\ c = (if (cols x =? 1)%nat then 1%nat else rows x)).
  { unfold o'. rewrite Co. destruct (Nat.eqb_spec (cols x) 1) as [C|C].
    - exists (rows x), 1%nat. split; [|auto]. f_equal. rewrite <- C. reflexivity.
    - exists (cols x), (rows x). split; [|auto]. rewrite vector_transposed; [reflexivity|exact V|now rewrite Co]. }
  destruct T as (r & c & -> & Er & Ec). eexists. split; [reflexivity|]. split; [cbn; exact Er|]. split; [cbn; exact Ec|].
  rewrite const_in_data, unary_data. unfold mat_sum, sum_kernel. rewrite unary_data. cbn [data]. rewrite Do. now rewrite !map_map.
Qed.
Lemma softmax_finite x : is_vector x = true -> all_finite x -> data x <> [] ->
  exists s, softmax m d x = Some s /\ length (data s) = length (data x) /\
    Forall (fun p => finite p /\ 0 <= real p <= 1) (data s) /\ Exists (fun p => / cap d <= real p) (data s).
Proof.
  intros V F N. destruct (data x) as [|v vs] eqn:E; [contradiction|]. unfold all_finite in F. rewrite E in F.
  destruct (softmax_data x v vs V E) as (s & Es & _ & _ & Ds). cbv zeta in *. exists s. split; [assumption|].
  rewrite Ds. split; [now rewrite !map_length|]. destruct (inverse_bounds v vs F) as (Fi & Bi).
  set (inv := conv F64 d (conv d F64 (fdiv fone (fold_left fadd (map (fun x0 => exp_elem m d (fadd x0 (fneg (max_loop flt v vs)))) (v :: vs)) fzero)))) in *. split.
  - apply Forall_forall. intros p Hp. apply in_map_iff in Hp as (e & <- & He). pose proof (exps_bounds v vs F) as B. rewrite Forall_forall in B. destruct (B e He) as (Fe & Be).
    destruct (mul_in d e inv 0 1 Fe Fi (rep_0 d) (rep_1 d)) as (A & Q & _); [|auto].
    assert (0 <= real inv) by (destruct Bi; eapply Rle_trans; [|eassumption]; apply Rlt_le, Rinv_0_lt_compat, bpow_gt_0). split; [now apply Rmult_le_pos|].
    rewrite <- (Rmult_1_r 1). apply Rmult_le_compat; lra.
  - apply Exists_exists. destruct (max_finite d vs v F) as (I & _). set (mx := max_loop flt v vs) in *.
    exists (fmul (exp_elem m d (fadd mx (fneg mx))) inv). split.
    + apply (in_map (fun e => fmul e inv)). apply in_map_iff. exists mx. auto.
    + assert (Fm : finite mx) by (rewrite Forall_forall in F; now apply F). destruct (shifted_zero mx Fm) as (A & B).
      pose proof (exp_elem_zero _ A B) as V1. destruct (exp_elem_le (fadd mx (fneg mx))) as (Fe & _); [now apply finite_number|lra|now right|].
      destruct (mul_in d (exp_elem m d (fadd mx (fneg mx))) inv (/ cap d) 1 Fe Fi) as (_ & Q & _); [unfold cap; rewrite <- bpow_opp; apply rep_pow; destruct d; cbn; lia|apply rep_1|rewrite V1; lra|lra].
Qed.

(** ** LogSumExp *)
Lemma arg_max_finite (x : dense (val d)) : is_vector x = true -> all_finite x -> data x <> [] -> exists i, arg_max flt x = Some i /\ (i < length (data x))%nat /\
  finite (nth i (data x) fzero) /\ forall y, In y (data x) -> real y <= real (nth i (data x) fzero).
Proof.
  intros V F N. unfold arg_max. rewrite V. cbn [negb]. unfold all_finite in F. destruct (data x) as [|v vs] eqn:E; [contradiction|]. clear N.
  assert (L : forall rest i mi mv, v :: vs = firstn i (v :: vs) ++ rest -> (i + length rest = length (v :: vs))%nat -> (mi < length (v :: vs))%nat -> mv = nth mi (v :: vs) fzero ->
     (forall k, (k < i)%nat -> real (nth k (v :: vs) fzero) <= real mv) ->
     let r := arg_max_loop flt i mi mv rest in (r < length (v :: vs))%nat /\ forall k, (k < length (v :: vs))%nat -> real (nth k (v :: vs) fzero) <= real (nth r (v :: vs) fzero)).
  { induction rest as [|w rest IH]; intros i mi mv A Hl Hm Hv M; cbn [arg_max_loop].
    - cbn in Hl. split; [exact Hm|]. intros k Hk. rewrite <- Hv. apply M. cbn in Hk. lia.
    - assert (Hw : w = nth i (v :: vs) fzero).
      { rewrite A, app_nth2 by (rewrite firstn_length; lia). rewrite firstn_length. replace (i - Nat.min i (length (v :: vs)))%nat with 0%nat by (cbn in Hl |- *; lia). reflexivity. }
      assert (A' : v :: vs = firstn (Datatypes.S i) (v :: vs) ++ rest).
      { transitivity (firstn i (v :: vs) ++ [w] ++ rest); [exact A|]. rewrite app_assoc. f_equal. rewrite A at 2. rewrite firstn_app, firstn_firstn, firstn_length.
        cbn [length] in Hl |- *. replace (Nat.min (Datatypes.S i) i) with i by lia. replace (Datatypes.S i - Nat.min i (Datatypes.S (length vs)))%nat with 1%nat by lia. reflexivity. }
      assert (Hi : (i < length (v :: vs))%nat) by (cbn in Hl |- *; lia).
      assert (Fw : finite w) by (rewrite Hw; rewrite Forall_forall in F; apply F, nth_In, Hi).
      assert (Fm : finite mv) by (rewrite Hv; rewrite Forall_forall in F; apply F, nth_In, Hm).
      cbn [length] in Hl. destruct (flt mv w) eqn:Q.
      + apply lt_eq in Q; auto. apply IH; auto; [cbn [length]; lia|]. intros k Hk. destruct (Nat.eq_dec k i) as [->|]; [rewrite <- Hw; lra|]. assert (real (nth k (v :: vs) fzero) <= real mv) by (apply M; lia). lra.
      + apply lt_false in Q; auto. apply IH; auto; [cbn [length]; lia|]. intros k Hk. destruct (Nat.eq_dec k i) as [->|]; [rewrite <- Hw; lra|]. apply M. lia. }
  destruct (L (v :: vs) 0%nat 0%nat v) as (A & B); auto; [cbn; lia|intros k Hk; lia|]. cbv zeta in *.
  eexists. split; [reflexivity|]. split; [exact A|]. split; [rewrite Forall_forall in F; now apply F, nth_In|]. intros y H. apply (In_nth _ _ fzero) in H as (k & Hk & <-). now apply B.
Qed.
Lemma ln_cap : forall x, 1 <= x <= cap d -> 0 <= ln x <= 53.
Proof.
  intros x (A & B). split.
  - rewrite <- ln_1. destruct A as [A|<-]; [left; apply ln_increasing; lra|lra].
  - assert (L : ln x <= ln (cap d)) by (destruct B as [B| ->]; [left; apply ln_increasing; lra|lra]). eapply Rle_trans; [exact L|].
    unfold cap. rewrite <- ln_exp. assert (bpow radix2 (prec d) <= exp 53); [|destruct H as [H| ->]; [left; apply ln_increasing; [apply bpow_gt_0|exact H]|lra]].
    apply Rle_trans with (bpow radix2 53); [apply bpow_le; destruct d; cbn; lia|]. rewrite bpow_exp. rewrite <- (Rmult_1_r 53) at 2. apply exp_le.
    apply Rmult_le_compat_l; [lra|]. change (radix2 : Z) with 2%Z. rewrite <- (ln_exp 1). assert (2 <= exp 1) by (pose proof (exp_ineq1 1); lra). destruct H as [H|H]; [left; apply ln_increasing; lra|rewrite <- H; lra].
Qed.
Lemma log_elem_in s : finite s -> 1 <= real s <= cap d -> finite (log_elem m d s) /\ 0 <= real (log_elem m d s) <= 64.
Proof.
  intros F B. unfold log_elem. destruct (conv_up d s F) as (F1 & V1). rewrite <- V1 in B. pose proof (ln_cap _ B) as L.
  assert (F2 : finite (Log m (conv d F64 s))) by (apply (log_finite m G); auto; lra).
  pose proof (log_value m G (conv d F64 s) F1 ltac:(lra)) as A. pose proof (log_positive m G (conv d F64 s) F1 ltac:(lra)) as P.
  destruct (conv_in F64 d (Log m (conv d F64 s)) 0 64 F2 (rep_0 d)) as (X & Y & _); [apply (rep_int d 64); cbn; lia| |auto].
  split; [exact P|]. apply Rabs_le_inv in A. rewrite (Rabs_pos_eq (ln _)) in A by lra.
  assert (Q2 : ln (real (conv d F64 s)) / 2 ^ 50 <= 1).
  { apply Rle_trans with (53 / 2 ^ 50); [apply Rmult_le_compat_r; [apply Rlt_le, Rinv_0_lt_compat, pow_lt; lra|lra]|]. apply Rle_trans with (2 ^ 50 * / 2 ^ 50); [|right; apply Rinv_r, pow_nonzero; lra]. apply Rmult_le_compat_r; [apply Rlt_le, Rinv_0_lt_compat, pow_lt; lra|].
    apply Rle_trans with (2 ^ 6); [simpl; lra|]. apply Rle_pow; [lra|lia]. }
  assert (Q3 : / 2 ^ 1074 <= 1) by (rewrite <- Rinv_1; apply Rinv_le_contravar; [lra|apply pow_R1_Rle; lra]).
  lra.
Qed.
End M.
