(** * Attention in floating point: the weights, and the attention *)
From Coq Require Import ZArith Bool Lia List Arith Reals Lra Permutation.
From Flocq Require Import Core BinarySingleNaN.
From Verif Require Import AsmModel AsmCalls AsmSpec FloatModel FloatSpec FloatProofs NumModel NumSpec NumLemmas AsmFloatSpec AsmFloat AsmFloat2 SoftSpec SoftProofs SoftFloat SoftFloat2 OptFloatNum NormFloatModel NormFloatSpec NormFloatBack NormFloatBack5 LossFloatModel LossFloatSpec LossFloatProofs LossFloatProofs2 LossFloatProofs4 LossFloatProofs9 RnnFloatModel RnnFloatSpec RnnFloatProofs RnnFloatProofs3 AttFloatModel AttFloatSpec AttFloatProofs AttFloatProofs2.
Import ListNotations.
Local Open Scope list_scope.
Local Open Scope R_scope.

Lemma add_minus d (x : val d) : finite x -> fadd x (B754_infinity true) = B754_infinity true.
Proof. destruct x as [s|s| |s m e H]; intros F; try discriminate; reflexivity. Qed.
Lemma add_zero d (x : val d) : finite x -> finite (fadd x fzero) /\ real (fadd x fzero) = real x.
Proof. destruct x as [[|]|s| |s m e H]; intros F; try discriminate; split; reflexivity. Qed.
Lemma mask_length i n : length (causal_mask i n) = n.
Proof. unfold causal_mask. now rewrite map_length, seq_length. Qed.
Lemma mask_nth d i n j : (j < n)%nat -> nth j (map (conv F64 d) (causal_mask i n)) fzero = if (i + 1 <=? j)%nat then B754_infinity true else fzero.
Proof.
  intros H. unfold causal_mask. rewrite map_map.
  rewrite (nth_indep _ fzero (conv F64 d (if (i + 1 <=? n)%nat then B754_infinity true else fzero))) by (now rewrite map_length, seq_length).
  rewrite (map_nth (fun j => conv F64 d (if (i + 1 <=? j)%nat then B754_infinity true else fzero))), seq_nth by exact H. cbn [plus]. destruct (i + 1 <=? j)%nat; destruct d; reflexivity.
Qed.

Section Weights.
Variable g : libm.
Hypothesis G : go_math g.
Variable d : dtype.
Variable cp : cpu.
Notation vec := (list (val d)).
Variable dot : list nat -> list (val d * val d) -> val d.
Hypothesis D : dots_all dot.
Variable sum : nat -> vec -> val d.
Hypothesis A : adds_all sum.
Variable vexp : vec -> vec.
Hypothesis Hexp : forall l, exps g d cp l (vexp l).
Variables (a b n : nat) (B V : R) (q k v : list vec) (scale : val F64) (causal : bool).
Hypothesis Q : good_inputs a b n B V q k v scale.
Notation masked := (causal && (1 <? length q)%nat).
Notation delta := (score_error (d := d) a B scale).
Variable i : nat.
Hypothesis Hi : (i < length q)%nat.
Notation vis := (visible causal (length q) i n).
Notation qi := (nth i q []).
Notation l := (scores d dot k scale masked i qi).
Notation f := (score k scale qi).

Lemma vis_range : (0 < vis <= n)%nat.
Proof. destruct (in_count _ _ _ _ _ _ _ _ _ Q) as (N & _). unfold visible. destruct (causal && _)%bool; lia. Qed.
Lemma products_length : length (map (fun v => fmul v (conv F64 d scale)) (mul_rows d dot [i] 0 k qi)) = n.
Proof. rewrite map_length, mul_rows_length. apply (in_keys _ _ _ _ _ _ _ _ _ Q). Qed.
Lemma products_nth j : (j < n)%nat -> nth j (map (fun v => fmul v (conv F64 d scale)) (mul_rows d dot [i] 0 k qi)) fzero = fmul (nth j (mul_rows d dot [i] 0 k qi) fzero) (conv F64 d scale).
Proof.
  intros H. rewrite (nth_indep _ fzero (fmul fzero (conv F64 d scale))) by (rewrite products_length; exact H). apply (map_nth (fun v => fmul v (conv F64 d scale))).
Qed.
Lemma scores_length : length l = n.
Proof.
  unfold scores. destruct masked; [|apply products_length]. apply zip_len; [apply products_length|]. rewrite map_length, mask_length. apply (in_keys _ _ _ _ _ _ _ _ _ Q).
Qed.
Lemma scores_nth j : (j < n)%nat -> let x := nth j l fzero in
  if (j <? vis)%nat then finite x /\ Rabs (real x - f j) <= delta else x = B754_infinity true.
Proof.
  intros H x. destruct (score_ok d dot D a b n B V q k v scale Q [i] i j Hi H) as (F & E). unfold x, scores, visible. destruct masked.
  - assert (Lk : length k = n) by apply (in_keys _ _ _ _ _ _ _ _ _ Q). rewrite nth_zip; [|rewrite products_length; exact H|rewrite map_length, mask_length; lia]. rewrite products_nth, mask_nth by lia.
    destruct (j <? Nat.min (i + 1) n)%nat eqn:L.
    + apply Nat.ltb_lt in L. replace (i + 1 <=? j)%nat with false by (symmetry; apply Nat.leb_gt; lia). destruct (add_zero d _ F) as (F' & ->). split; [exact F'|exact E].
    + apply Nat.ltb_ge in L. replace (i + 1 <=? j)%nat with true by (symmetry; apply Nat.leb_le; lia). now apply add_minus.
  - replace (j <? n)%nat with true by (symmetry; now apply Nat.ltb_lt). rewrite products_nth by exact H. split; [exact F|exact E].
Qed.

Notation w := (softmax d sum vexp i l).
Lemma delta_pos : 0 <= delta.
Proof.
  unfold score_error. destruct (in_range _ _ _ _ _ _ _ _ _ Q) as ((B0 & _) & _). pose proof (u_pos d) as U. pose proof (half_tiny_pos d) as T. pose proof (pos_INR a) as I0. pose proof (Rabs_pos (real (conv F64 d scale))) as S0.
  assert (0 <= (2 * INR a + 1) * u d * B) by (apply Rmult_le_pos; [apply Rmult_le_pos|]; lra). assert (0 <= 2 * INR a * half_tiny d) by (apply Rmult_le_pos; lra).
  assert (0 <= Rabs (real (conv F64 d scale)) * ((2 * INR a + 1) * u d * B + 2 * INR a * half_tiny d)) by (apply Rmult_le_pos; lra). lra.
Qed.
Lemma soft_range : 0 <= soft_rel d n <= 0.26 /\ 0 <= soft_abs d.
Proof.
  destruct (in_count _ _ _ _ _ _ _ _ _ Q) as (_ & N & _). rewrite soft_rel_eq, soft_abs_eq. destruct (eta_tau d) as (E1 & E2 & E3). pose proof (u_pos d). pose proof (pos_INR n). assert (0 <= INR n * u d) by (apply Rmult_le_pos; lra). lra.
Qed.
Theorem weights_ok : length w = n /\
  (forall j, (j < n)%nat -> finite (nth j w fzero) /\ 0 <= real (nth j w fzero) <= 1 /\ ((vis <= j)%nat -> nth j w fzero = fzero)) /\
  (delta <= / 8 -> forall j, (j < vis)%nat -> Rabs (real (nth j w fzero) - share f vis j) <= (soft_rel d n + 4 * delta) * share f vis j + soft_abs d) /\
  Rabs (total w - 1) <= soft_rel d n + INR n * soft_abs d.
Proof.
  pose proof scores_length as L. pose proof scores_nth as N. pose proof vis_range as R. destruct (in_count _ _ _ _ _ _ _ _ _ Q) as (Pn & Nn & _). pose proof delta_pos as D0. pose proof soft_range as (S0 & S1).
  unfold softmax. set (l' := l) in *. clearbody l'. destruct l' as [|x0 xs]; [cbn in L; lia|]. set (l0 := x0 :: xs) in *.
  set (mx := ArithModel.max_loop flt x0 xs). set (es := vexp (sub_scalar d l0 mx)). rewrite (FloatProofs.conv_back d F64) by (destruct d; exact I).
  assert (F0 : finite x0). { specialize (N 0%nat ltac:(lia)). cbn [nth l0] in N. replace (0 <? vis)%nat with true in N by (symmetry; apply Nat.ltb_lt; lia). apply N. }
  assert (Fs : Forall seen xs). { rewrite Forall_forall. intros x Ix. apply (In_nth _ _ fzero) in Ix. destruct Ix as (j & Hj & <-). specialize (N (S j) ltac:(rewrite <- L; cbn; lia)). cbn [nth l0] in N. destruct (S j <? vis)%nat; [left; apply N|right; exact N]. }
  assert (He : exps g d cp (map (fun w => fadd w (fneg mx)) l0) es) by (unfold es; rewrite sub_scalar_eq; apply Hexp).
  destruct (softmax_seen g G d cp x0 xs es (sum i es) F0 Fs ltac:(fold l0; rewrite L; exact Nn) He (A i es)) as (Fm & X1 & Fi & Pi & O). fold l0 mx in Fm, X1, O. rewrite L in O.
  set (out := map (fun e => fmul e (fdiv fone (sum i es))) es) in *. destruct (Forall2_nth _ fzero fzero _ _ O) as (Lo & On). rewrite L in Lo, On.
  assert (Ef : forall j, (j < n)%nat -> ex mx (nth j l0 fzero) = if (j <? vis)%nat then exp (real (nth j l0 fzero)) * exp (- real mx) else 0).
  { intros j Hj. specialize (N j Hj). unfold ex. destruct (j <? vis)%nat; [destruct N as (-> & _); unfold Rminus; apply exp_plus|rewrite N; reflexivity]. }
  assert (Es : exs mx l0 = exp (- real mx) * sum_to vis (fun j => exp (real (nth j l0 fzero)))).
  { unfold exs. rewrite (fold_sum fzero (ex mx) l0), L. rewrite (sum_to_part n vis); [|lia|].
    - rewrite <- sum_to_scal. apply sum_to_ext. intros j Hj. rewrite Ef by lia. replace (j <? vis)%nat with true by (symmetry; now apply Nat.ltb_lt). ring.
    - intros j Hj. rewrite Ef by lia. replace (j <? vis)%nat with false by (symmetry; apply Nat.ltb_ge; lia). reflexivity. }
  assert (Sh : forall j, (j < vis)%nat -> ex mx (nth j l0 fzero) / exs mx l0 = share (fun j => real (nth j l0 fzero)) vis j).
  { intros j Hj. rewrite Ef, Es by lia. replace (j <? vis)%nat with true by (symmetry; now apply Nat.ltb_lt). unfold share. pose proof (exp_pos (- real mx)). assert (0 < sum_to vis (fun l => exp (real (nth l l0 fzero)))) by (apply sum_to_pos; [lia|intros; apply exp_pos]). field. lra. }
  split; [exact Lo|]. split; [|split].
  - intros j Hj. destruct (On j Hj) as (O1 & O2 & _ & O4). split; [exact O1|]. split; [exact O2|]. intros Hv. apply O4. specialize (N j Hj). replace (j <? vis)%nat with false in N by (symmetry; now apply Nat.ltb_ge). rewrite N. reflexivity.
  - intros Hd j Hj. destruct (On j ltac:(lia)) as (_ & _ & O3 & _). rewrite Sh in O3 by exact Hj.
    assert (NS : Rabs (share (fun j => real (nth j l0 fzero)) vis j - share f vis j) <= 8 / 3 * delta * share f vis j).
    { apply share_near; [exact Hj|lra|]. intros j' Hj'. specialize (N j' ltac:(lia)). replace (j' <? vis)%nat with true in N by (symmetry; now apply Nat.ltb_lt). apply N. }
    pose proof (share_pos f vis j ltac:(lia)) as P2. set (s1 := share (fun j => real (nth j l0 fzero)) vis j) in *. set (s2 := share f vis j) in *. clearbody s1 s2.
    eapply Rle_trans; [apply (rabs_tri _ s1 _ _ _ O3 NS)|]. apply Rabs_le_inv in NS. assert (DS : 0 <= delta * s2) by (apply Rmult_le_pos; lra).
    assert (soft_rel d n * s1 <= soft_rel d n * (s2 + 8 / 3 * delta * s2)) by (apply Rmult_le_compat_l; lra). assert (soft_rel d n * (8 / 3 * delta * s2) <= 0.26 * (8 / 3 * delta * s2)) by (apply Rmult_le_compat_r; lra). lra.
  - assert (T : total out = sum_to n (fun j => real (nth j out fzero))) by (unfold total; rewrite (fold_sum fzero (fun x => real x) out), Lo; reflexivity).
    assert (O1 : sum_to n (fun j => ex mx (nth j l0 fzero) / exs mx l0) = 1).
    { rewrite (sum_to_ext n _ (fun j => / exs mx l0 * ex mx (nth j l0 fzero))) by (intros; unfold Rdiv; ring). rewrite sum_to_scal, <- L, <- (fold_sum fzero (ex mx) l0). fold (exs mx l0). field. lra. }
    rewrite T, <- O1. eapply Rle_trans; [apply (sum_to_near n _ _ (fun j => soft_rel d n * (ex mx (nth j l0 fzero) / exs mx l0) + soft_abs d)); intros j Hj; apply (On j Hj)|]. rewrite sum_to_lin, O1. lra.
Qed.

(** ** The product with the values *)
Lemma mul_t_nth (c : nat) rows : Forall (fun r : vec => length r = b) rows -> forall ws out, length out = b -> (c < b)%nat ->
  length (fold_left (fun out p => zip (fun x o => fadd (fmul x (snd p)) o) (fst p) out) (combine rows ws) out) = b /\
  nth c (fold_left (fun out p => zip (fun x o => fadd (fmul x (snd p)) o) (fst p) out) (combine rows ws) out) fzero =
  fold_left (fun o p => fadd (fmul (fst p) (snd p)) o) (combine (map (fun r => nth c r fzero) rows) ws) (nth c out fzero).
Proof.
  intros F. induction F as [|r rows Lr F IH]; intros ws out Lo Hc; [split; [exact Lo|reflexivity]|]. destruct ws as [|x ws]; [split; [exact Lo|reflexivity]|]. cbn [combine map fold_left fst snd].
  destruct (IH ws (zip (fun y o => fadd (fmul y x) o) r out) ltac:(apply zip_len; assumption) Hc) as (I1 & I2). split; [exact I1|]. rewrite I2. f_equal. rewrite nth_zip by lia. reflexivity.
Qed.
Lemma loop_dot (ps : list (val d * val d)) : forall o m, dot_of (floats d) o m -> dot_of (floats d) (fold_left (fun o p => fadd (fmul (fst p) (snd p)) o) ps o) (m ++ ps).
Proof.
  induction ps as [|(x, y) ps IH]; intros o m H; cbn [fold_left fst snd]; [now rewrite app_nil_r|].
  replace (m ++ (x, y) :: ps) with ((m ++ [(x, y)]) ++ ps) by (rewrite <- app_assoc; reflexivity). apply IH.
  apply (dot_add (floats d) (fmul x y) o [(x, y)] m); [exact (dot_one (floats d) x y)|exact H|]. apply Permutation_app_comm.
Qed.
Notation out := (mul_t d v w).
Notation col c := (map (fun r : vec => nth c r fzero) v).
Lemma col_len c : length (col c) = n.
Proof. rewrite map_length. apply (in_values _ _ _ _ _ _ _ _ _ Q). Qed.
Lemma out_ok c : (c < b)%nat -> length out = b /\ dot_of (floats d) (nth c out fzero) (combine (col c) w).
Proof.
  intros Hc. destruct (in_values _ _ _ _ _ _ _ _ _ Q) as (Lv & Fv). destruct (in_count _ _ _ _ _ _ _ _ _ Q) as (Pn & _).
  assert (F : Forall (fun r : vec => length r = b) v) by (eapply Forall_impl; [|exact Fv]; cbv beta; tauto).
  assert (H0 : length (hd [] v) = b) by (destruct F as [|r rows Lr F]; [cbn in Lv; lia|exact Lr]).
  unfold mul_t. rewrite H0. destruct (mul_t_nth c v F w (repeat fzero b) (repeat_length _ _) Hc) as (M1 & M2). split; [exact M1|]. rewrite M2.
  rewrite nth_repeat. apply (loop_dot _ fzero []). apply (dot_zero (floats d)).
Qed.
Lemma col_nth c j : (j < n)%nat -> nth j (col c) fzero = nth c (nth j v []) fzero.
Proof.
  intros Hj. rewrite (nth_indep _ fzero (nth c (@nil (val d)) fzero)) by (rewrite col_len; exact Hj). apply (map_nth (fun r : vec => nth c r fzero)).
Qed.
Lemma value_in c j : (c < b)%nat -> (j < n)%nat -> finite (nth c (nth j v []) fzero) /\ Rabs (real (nth c (nth j v []) fzero)) <= V.
Proof.
  intros Hc Hj. destruct (in_values _ _ _ _ _ _ _ _ _ Q) as (Lv & Fv). rewrite Forall_forall in Fv. destruct (Fv (nth j v [])) as (L1 & F1); [apply nth_In; lia|]. rewrite Forall_forall in F1. apply F1, nth_In. lia.
Qed.
Lemma combine_sum (F : val d * val d -> R) (x y : vec) : length x = n -> length y = n -> fold_right (fun p s => F p + s) 0 (combine x y) = sum_to n (fun j => F (nth j x fzero, nth j y fzero)).
Proof.
  intros Lx Ly. rewrite (fold_sum (fzero, fzero) F), combine_length, Lx, Ly, Nat.min_id. apply sum_to_ext. intros j Hj. rewrite combine_nth by lia. reflexivity.
Qed.
Theorem attention_ok c : (c < b)%nat -> length out = b /\ finite (nth c out fzero) /\
  Rabs (real (nth c out fzero)) <= (1 + 2 * soft_rel d n) * V + 2 * (INR n * half_tiny d) /\
  (delta <= / 8 -> Rabs (real (nth c out fzero) - attended f vis v c) <= att_error d n V delta).
Proof.
  intros Hc. destruct (out_ok c Hc) as (Lo & Do). split; [exact Lo|]. destruct weights_ok as (Lw & W1 & W2 & W3). destruct (in_count _ _ _ _ _ _ _ _ _ Q) as (Pn & Nn & _). destruct (in_range _ _ _ _ _ _ _ _ _ Q) as (_ & _ & V0 & V1).
  pose proof soft_range as (S0 & S1). pose proof vis_range as R. pose proof (col_len c) as Lc. set (ws := w) in *. clearbody ws. set (o := nth c (mul_t d v ws) fzero) in *. clearbody o.
  assert (PA : product_abs (combine (col c) ws) <= V * total ws).
  { unfold product_abs, total. rewrite (combine_sum (fun p => Rabs (real (fst p) * real (snd p)))) by assumption. rewrite (fold_sum fzero (fun x => real x) ws), Lw, <- sum_to_scal. apply sum_to_le. intros j Hj. cbn [fst snd]. rewrite Rabs_mult.
    destruct (W1 j Hj) as (_ & Wj & _). rewrite (Rabs_right (real (nth j ws fzero))) by lra. apply Rmult_le_compat_r; [lra|]. rewrite col_nth by exact Hj. now apply value_in. }
  assert (FC : Forall finite (col c)). { rewrite Forall_forall. intros x Ix. apply (In_nth _ _ fzero) in Ix. destruct Ix as (j & Hj & <-). rewrite Lc in Hj. rewrite col_nth by exact Hj. now apply value_in. }
  assert (FW : Forall finite ws). { rewrite Forall_forall. intros x Ix. apply (In_nth _ _ fzero) in Ix. destruct Ix as (j & Hj & <-). rewrite Lw in Hj. apply (W1 j Hj). }
  assert (CL : length (combine (col c) ws) = n) by (rewrite combine_length, Lc, Lw; apply Nat.min_id).
  pose proof (u_pos d) as U. pose proof (half_tiny_pos d) as T. pose proof (pos_INR n) as I0. assert (NU : 0 <= INR n * u d) by (apply Rmult_le_pos; lra). assert (NT : 0 <= INR n * half_tiny d) by (apply Rmult_le_pos; lra).
  assert (NA : 0 <= INR n * soft_abs d) by (apply Rmult_le_pos; lra).
  assert (HR : 2 * (INR n * u d) + 2 * (INR n * soft_abs d) <= soft_rel d n /\ INR n * half_tiny d * 2 <= INR n * soft_abs d).
  { rewrite soft_rel_eq, soft_abs_eq. pose proof (count_tau d n Nn) as C. pose proof (tiny_tau d) as Tt. destruct (eta_tau d) as (E1 & E2 & _). split; [lra|]. rewrite Rmult_assoc. apply Rmult_le_compat_l; lra. }
  destruct HR as (HR & HT). apply Rabs_le_inv in W3.
  assert (TW : V * total ws <= V * (1 + soft_rel d n + INR n * soft_abs d)) by (apply Rmult_le_compat_l; lra).
  set (r := soft_rel d n) in *. set (e := INR n * soft_abs d) in *. set (nu := INR n * u d) in *. set (nt := INR n * half_tiny d) in *.
  assert (VR : 0 <= V * r <= V * 0.26) by (split; [apply Rmult_le_pos; lra|apply Rmult_le_compat_l; lra]).
  assert (VE : 0 <= V * e <= V * 0.26) by (split; [apply Rmult_le_pos; lra|apply Rmult_le_compat_l; lra]).
  assert (HP : product_abs (combine (col c) ws) <= V * (1 + r + e)) by lra.
  destruct (dot_ok d o (col c) ws (V * (1 + r + e)) Do FC FW) as (Fo & Eo); [rewrite CL; exact Nn|exact HP|lra|]. rewrite CL in Eo. fold nu nt in Eo.
  assert (VN : 0 <= V * nu) by (apply Rmult_le_pos; lra).
  assert (VH : V * (2 * nu + 2 * e) <= V * r) by (apply Rmult_le_compat_l; lra).
  assert (NV : nu * (V * (1 + r + e)) <= V * nu * 1.52). { replace (nu * (V * (1 + r + e))) with (V * nu * (1 + r + e)) by ring. apply Rmult_le_compat_l; lra. }
  split; [exact Fo|]. split.
  - pose proof (rabs_near _ _ _ Eo) as Z. pose proof (product_le d (combine (col c) ws)) as Y. lra.
  - intros Hd. specialize (W2 Hd). pose proof delta_pos as D0.
    assert (E : Rabs (product (combine (col c) ws) - attended f vis v c) <= (r + 4 * delta) * V + e * V).
    { unfold product, attended. rewrite (combine_sum (fun p => real (fst p) * real (snd p))) by assumption. cbn [fst snd]. rewrite (sum_to_part n vis); [|lia|].
      - eapply Rle_trans; [apply (sum_to_near vis _ _ (fun j => V * (r + 4 * delta) * share f vis j + V * soft_abs d))|].
        + intros j Hj. rewrite col_nth by lia. destruct (value_in c j Hc ltac:(lia)) as (_ & Vj). replace (real (nth c (nth j v []) fzero) * real (nth j ws fzero) - share f vis j * real (nth c (nth j v []) fzero)) with (real (nth c (nth j v []) fzero) * (real (nth j ws fzero) - share f vis j)) by ring.
          rewrite Rabs_mult. replace (V * (r + 4 * delta) * share f vis j + V * soft_abs d) with (V * ((r + 4 * delta) * share f vis j + soft_abs d)) by ring. apply Rmult_le_compat; [apply Rabs_pos|apply Rabs_pos|exact Vj|now apply W2].
        + rewrite sum_to_lin, share_sum by lia. rewrite Rmult_1_r. assert (INR vis * (V * soft_abs d) <= INR n * (V * soft_abs d)). { apply Rmult_le_compat_r; [apply Rmult_le_pos; lra|]. apply le_INR. lia. }
          replace (e * V) with (INR n * (V * soft_abs d)) by (unfold e; ring). lra.
      - intros j Hj. destruct (W1 j ltac:(lia)) as (_ & _ & ->); [|lia]. change (real (fzero : val d)) with 0. ring. }
    eapply Rle_trans; [apply (rabs_tri _ _ _ _ _ Eo E)|]. unfold att_error. fold r nu e. lra.
Qed.
End Weights.
