(** * The results of FixNorm, ScaleNorm and RMSNorm *)
From Coq Require Import ZArith Bool Lia List Arith Reals Lra Psatz.
From Flocq Require Import Core BinarySingleNaN.
From Verif Require Import FloatModel FloatSpec NumModel NumSpec NumLemmas AsmFloatSpec AsmFloat AsmFloat2 AsmModel AsmCalls AsmSpec OptFloatModel OptFloatNum NormFloatModel NormFloatSpec NormFloatNum NormFloatProofs NormFloatProofs2 NormFloatBack NormFloatBack5 NormFloatEdge.
Import ListNotations.
Local Open Scope R_scope.
Notation elem i l := (real (nth i l fzero)).

Lemma forall2_nth {A} (P : A -> A -> Prop) x y z i : Forall2 P x y -> (i < length x)%nat -> P (nth i x z) (nth i y z).
Proof. intros H. revert i. induction H as [|a b x y Hab H IH]; intros i Hi; cbn in Hi; [lia|]. destruct i; [exact Hab|]. cbn [nth]. apply IH. lia. Qed.
Lemma sized_nth {d} B (x : list (val d)) i : sized B x -> (i < length x)%nat -> finite (nth i x fzero) /\ Rabs (elem i x) <= B.
Proof. intros H Hi. unfold sized in H. rewrite Forall_forall in H. apply H. now apply nth_In. Qed.

(** a result close to t, of bounded size *)
Definition good (d : dtype) (r : R) (y : val d) (t : R) : Prop := finite y /\ Rabs (real y) <= in_max d * 2 ^ 35 /\ Rabs (real y - t) <= 1.6 * r * Rabs t + half_tiny d.
Lemma good_of d c (x : list (val d)) s i : sq_ok d c x s -> few d (length x) -> 0 < c <= 1 -> sized (in_max d) x -> (i < length x)%nat ->
  good d (rho d (length x)) (nth i (div_scalar d x (fadd (elem_sqrt d s) (eps10 d))) fzero) (elem i x / (size_c d c x + guard10)).
Proof.
  intros Ok Hn C0 Hx Hi. pose proof (forall2_nth _ _ _ fzero i (forward_ok d c x s Ok Hn C0 Hx) Hi) as (F & E). cbv beta in F, E. split; [exact F|]. split; [|exact E]. destruct (sized_nth _ x i Hx Hi) as (_ & B).
  pose proof (size_pos d c x) as P. pose proof guard_low as G. set (M := size_c d c x + guard10) in *. assert (PM : 0 < M) by (unfold M; lra). set (y := real (nth i (div_scalar d x _) fzero)) in *. pose proof (few_small d _ Hn) as (R1 & _).
  assert (K : Rabs (elem i x / M) <= in_max d * 2 ^ 34). { unfold Rdiv. rewrite Rabs_mult, (Rabs_right (/ M)) by (left; now apply Rinv_0_lt_compat). apply Rmult_le_compat; try apply Rabs_pos; [left; now apply Rinv_0_lt_compat|exact B|]. rewrite <- (Rinv_inv (2 ^ 34)). apply Rinv_le_contravar; unfold M; lra. }
  replace y with ((y - elem i x / M) + elem i x / M) by ring. eapply Rle_trans; [apply Rabs_triang|]. pose proof (Rabs_pos (elem i x / M)). assert (1.6 * rho d (length x) * Rabs (elem i x / M) <= 0.1 * Rabs (elem i x / M)) by (apply Rmult_le_compat_r; lra).
  pose proof (tiny_small d). pose proof (in_max_pos d). assert (1 * 1 <= in_max d * 2 ^ 34) by (apply Rmult_le_compat; lra). replace (in_max d * 2 ^ 35) with (2 * (in_max d * 2 ^ 34)) by (cbn [pow]; ring). lra.
Qed.
Lemma scale_max d : rep d (back_max d * (in_max d * 2 ^ 35)) /\ rep d (2 * (back_max d * (in_max d * 2 ^ 35))) /\ 1 <= back_max d.
Proof.
  unfold back_max, in_max. destruct d; rewrite <- !pow_add; cbn [Nat.add].
  - split; [apply rep_big; cbn; lia|]. split; [|apply pow_R1_Rle; lra]. change (2 * 2 ^ 105) with (2 ^ 106). apply rep_big. cbn; lia.
  - split; [apply rep_big; cbn; lia|]. split; [|apply pow_R1_Rle; lra]. change (2 * 2 ^ 915) with (2 ^ 916). apply rep_big. cbn; lia.
Qed.
Lemma scaled_good d r (y w : val d) t : 16 * u d <= r <= / 200 -> good d r y t -> finite w -> Rabs (real w) <= back_max d ->
  finite (fmul y w) /\ Rabs (real (fmul y w)) <= back_max d * (in_max d * 2 ^ 35) /\ Rabs (real (fmul y w) - real w * t) <= 1.7 * r * Rabs (real w * t) + 1.1 * ((Rabs (real w) + 1) * half_tiny d).
Proof.
  intros Hr (Fy & By & Ey) Fw Bw. destruct (scale_max d) as (S1 & _ & _). destruct (mul_op y w _ Fy Fw S1) as (F & B & N). { rewrite Rabs_mult, Rmult_comm. apply Rmult_le_compat; auto; apply Rabs_pos. } split; [exact F|]. split; [exact B|].
  unfold near_to in N. set (p := real (fmul y w)) in *. pose proof (u_small d) as (U0 & U1). pose proof (half_tiny_pos d) as Hh. rewrite Rabs_mult in N. rewrite Rabs_mult. set (aw := Rabs (real w)) in *. set (at' := Rabs t) in *. assert (Pw : 0 <= aw) by apply Rabs_pos. assert (Pt : 0 <= at') by apply Rabs_pos.
  assert (AY : Rabs (real y) <= at' + (1.6 * r * at' + half_tiny d)). { replace (real y) with ((real y - t) + t) by ring. eapply Rle_trans; [apply Rabs_triang|]. fold at'. lra. }
  replace (p - real w * t) with ((p - real y * real w) + real w * (real y - t)) by ring. eapply Rle_trans; [apply Rabs_triang|]. rewrite Rabs_mult. fold aw.
  assert (E1 : aw * Rabs (real y - t) <= aw * (1.6 * r * at' + half_tiny d)) by (apply Rmult_le_compat_l; auto). assert (AY' : aw * Rabs (real y) <= aw * (at' + (1.6 * r * at' + half_tiny d))) by (apply Rmult_le_compat_l; auto).
  set (q := aw * at') in *. assert (Pq : 0 <= q) by (apply Rmult_le_pos; auto). set (wh := aw * half_tiny d). assert (Pwh : 0 <= wh) by (apply Rmult_le_pos; lra). replace (aw * (1.6 * r * at' + half_tiny d)) with (1.6 * (r * q) + wh) in E1 by (unfold q, wh; ring). replace (aw * (at' + (1.6 * r * at' + half_tiny d))) with (q + 1.6 * (r * q) + wh) in AY' by (unfold q, wh; ring).
  assert (rq : r * q <= / 200 * q) by (apply Rmult_le_compat_r; lra). assert (E2 : u d * (Rabs (real y) * aw) <= u d * (1.01 * q + wh)) by (apply Rmult_le_compat_l; lra). assert (16 * u d * q <= r * q) by (apply Rmult_le_compat_r; lra). assert (u d * wh <= 0.1 * wh) by (apply Rmult_le_compat_r; lra). assert (0 <= u d * q) by (apply Rmult_le_pos; lra). fold q. replace ((aw + 1) * half_tiny d) with (wh + half_tiny d) by (unfold wh; ring). lra.
Qed.
Lemma shifted_good d r (y w b : val d) t : 16 * u d <= r <= / 200 -> good d r y t -> finite w -> Rabs (real w) <= back_max d -> finite b -> Rabs (real b) <= back_max d ->
  finite (fadd (fmul y w) b) /\ Rabs (real (fadd (fmul y w) b) - (real w * t + real b)) <= 1.8 * r * Rabs (real w * t) + u d * Rabs (real b) + 1.2 * ((Rabs (real w) + 1) * half_tiny d).
Proof.
  intros Hr Gy Fw Bw Fb Bb. destruct (scaled_good d r y w t Hr Gy Fw Bw) as (Fp & Bp & Ep). destruct (scale_max d) as (_ & S2 & S3). set (p := fmul y w) in *. pose proof (in_max_pos d) as I1.
  assert (BB : back_max d * 1 <= back_max d * (in_max d * 2 ^ 35)) by (apply Rmult_le_compat_l; [lra|]; assert (1 * 1 <= in_max d * 2 ^ 35) by (apply Rmult_le_compat; lra); lra).
  destruct (add_op p b _ Fp Fb S2) as (F & _ & N). { eapply Rle_trans; [apply Rabs_triang|]. lra. } split; [exact F|].
  pose proof (u_small d) as (U0 & U1). pose proof (half_tiny_pos d) as Hh. set (q := real w * t) in *. set (e := (Rabs (real w) + 1) * half_tiny d) in *. assert (Pe : 0 <= e) by (unfold e; apply Rmult_le_pos; [pose proof (Rabs_pos (real w))|]; lra). pose proof (Rabs_pos q) as Pq. pose proof (Rabs_pos (real b)) as Pb.
  assert (AP : Rabs (real p) <= 1.01 * Rabs q + 1.1 * e). { replace (real p) with ((real p - q) + q) by ring. eapply Rle_trans; [apply Rabs_triang|]. assert (1.7 * r * Rabs q <= 0.01 * Rabs q) by (apply Rmult_le_compat_r; lra). lra. }
  assert (APB : Rabs (real p + real b) <= 1.01 * Rabs q + 1.1 * e + Rabs (real b)) by (eapply Rle_trans; [apply Rabs_triang|]; lra). set (z := real (fadd p b)) in *. replace (z - (q + real b)) with ((z - (real p + real b)) + (real p - q)) by ring. eapply Rle_trans; [apply Rabs_triang|].
  assert (u d * Rabs (real p + real b) <= u d * (1.01 * Rabs q + 1.1 * e + Rabs (real b))) by (apply Rmult_le_compat_l; lra). assert (16 * u d * Rabs q <= r * Rabs q) by (apply Rmult_le_compat_r; lra). assert (u d * e <= 0.01 * e) by (apply Rmult_le_compat_r; lra). assert (0 <= u d * Rabs q) by (apply Rmult_le_pos; lra). lra.
Qed.

Lemma size_fix d (x : list (val d)) : size_c d 1 x = length_of (reals x). Proof. unfold size_c, length_of. now rewrite Rmult_1_l. Qed.
Lemma size_rms d (x : list (val d)) : size_c d (/ INR (length x)) x = rms_of (reals x).
Proof. unfold size_c, rms_of. f_equal. assert (E : length (reals x) = length x) by apply map_length. rewrite E. unfold Rdiv. ring. Qed.
Lemma fix_good d sum (x : list (val d)) i : adds_all sum -> few d (length x) -> sized (in_max d) x -> (i < length x)%nat ->
  good d (rho d (length x)) (nth i (fix_norm d sum x) fzero) (elem i x / (length_of (reals x) + guard10)).
Proof. intros A Hn Hx Hi. rewrite <- size_fix. apply (good_of d 1 x _ i (fix_square_ok d sum x A Hx Hn) Hn ltac:(lra) Hx Hi). Qed.
Lemma rms_good d sum (x : list (val d)) i : adds_all sum -> few d (length x) -> sized (in_max d) x -> (i < length x)%nat ->
  good d (rho d (length x)) (nth i (rms_unit d sum x) fzero) (elem i x / (rms_of (reals x) + guard10)).
Proof.
  intros A Hn Hx Hi. rewrite <- size_rms. assert (1 <= INR (length x)) by (change 1 with (INR 1); apply le_INR; lia). apply (good_of d (/ INR (length x)) x _ i (rms_square_ok d sum x A Hx Hn ltac:(lia)) Hn); auto.
  split; [apply Rinv_0_lt_compat; lra|]. rewrite <- Rinv_1. apply Rinv_le_contravar; lra.
Qed.
Lemma div_length d (x : list (val d)) v : length (div_scalar d x v) = length x. Proof. apply map_length. Qed.
