(** * LAMB in floating point: histories *)
From Coq Require Import Reals.
From Coq Require Import ZArith Bool Lia List Arith Lra Psatz.
From Flocq Require Import Core BinarySingleNaN Relative.
From Verif Require Import DenseModel DenseSpec ArithModel ArithSpec ArithProofs FloatModel FloatSpec NumModel NumSpec NumLemmas AsmFloatSpec AsmFloat
  OptFloatModel OptFloatSpec OptFloatNum OptFloatNum2 OptFloatNum3 OptFloatProofs OptFloatNum4 OptFloatProofs2 OptFloatProofs3
  NormFloatModel NormFloatSpec NormFloatNum NormFloatProofs NormFloatBack NormFloatBack5 LambFloatModel LambFloatSpec LambFloatProofs LambFloatProofs2.
Import ListNotations.
Local Open Scope R_scope.

Section Lamb.
Variable d : dtype.
Notation mat := (dense (val d)).
Notation cv := (conv F64 d).
Notation get m i j := (get fzero m i j).
Lemma index_split r c k : (k < r * c)%nat -> exists i j, (i < r)%nat /\ (j < c)%nat /\ k = (i * c + j)%nat.
Proof.
  intros H. assert (c <> 0)%nat by (intros ->; lia). exists (k / c)%nat, (k mod c)%nat. split; [apply Nat.div_lt_upper_bound; lia|]. split; [now apply Nat.mod_upper_bound|].
  rewrite (Nat.div_mod k c) at 1 by assumption. lia.
Qed.
Lemma index_lt r c i j : (i < r)%nat -> (j < c)%nat -> (i * c + j < r * c)%nat.
Proof. intros. nia. Qed.
Lemma prod_data (x : mat) r c : shaped d x r c -> exists p, m_prod d x x = Some p /\ data p = square d (data x).
Proof.
  intros Hx. destruct (prod_elems d x x r c Hx Hx) as (p & E & Sp & Ep). exists p. split; [exact E|]. destruct Hx as (W & Rx & Cx), Sp as (Wp & Rp & Cp).
  assert (L : length (data p) = length (data x)) by (rewrite W, Wp; congruence). unfold square.
  assert (Lz : length (zip fmul (data x) (data x)) = length (data x)) by (rewrite zip_length; lia).
  apply nth_ext with fzero fzero; [rewrite Lz; exact L|]. intros k Hk. rewrite L in Hk.
  destruct (index_split r c k) as (i & j & Hi & Hj & ->); [rewrite W, Rx, Cx in Hk; exact Hk|].
  pose proof (Ep i j Hi Hj) as G. rewrite !(get_data fzero) in G by (auto; lia). rewrite Cp, Cx in G. rewrite G. symmetry. apply nth_zip; exact Hk.
Qed.
Section Update.
Variables (sum : nat -> list (val d) -> val d) (al b1 b2 e la : val F64).
Definition norm_of (k : nat) (x : mat) : val F64 := sqrt64 (conv d F64 (sum k (square d (data x)))).
Lemma lamb_norm_eq k x r c : shaped d x r c -> lamb_norm d sum k x = Some (norm_of k x).
Proof. intros H. unfold lamb_norm. destruct (prod_data x r c H) as (p & -> & E). cbn [bind]. rewrite E. reflexivity. Qed.
Lemma lamb_elems g s w r c : moments_shaped d s r c -> shaped d g r c -> shaped d w r c ->
  exists delta s' q, lamb_update d sum al b1 b2 e la g s w = Some (delta, s') /\ moments_shaped d s' r c /\ shaped d delta r c /\ shaped d q r c /\ forall i j, (i < r)%nat -> (j < c)%nat ->
    let v' := avg d (cv b1) (get (mo_1 d s) i j) (cv (fsub fone b1)) (get g i j) in
    let m' := avg d (cv b2) (get (mo_2 d s) i j) (cv (fsub fone b2)) (fmul (get g i j) (get g i j)) in
    let a := fdiv v' (fadd (elem_sqrt d m') (cv e)) in
    get (mo_1 d s') i j = v' /\ get (mo_2 d s') i j = m' /\
    get q i j = (if is0 la then a else fadd a (fmul (get w i j) (cv la))) /\
    get delta i j = fmul (get q i j) (cv (fmul al (trust_ratio (norm_of 0 w) (norm_of 1 q)))).
Proof.
  intros Ss Sg Sw. unfold lamb_update. destruct (first_elems d b1 g s r c Ss Sg) as (s1 & -> & Ss1 & E12 & E11). cbn [bind].
  destruct (second_elems d b2 g s1 r c Ss1 Sg) as (s2 & -> & Ss2 & E21 & E22). cbn [bind]. destruct Ss2 as (S1 & S2 & S3 & S4 & S5).
  destruct (quotient_elems d (mo_1 d s2) (mo_2 d s2) e r c S1 S2) as (q & -> & Eq). cbn [bind].
  set (Q := fun i j => let q := fdiv (get (mo_1 d s2) i j) (fadd (elem_sqrt d (get (mo_2 d s2) i j)) (cv e)) in if is0 la then q else fadd q (fmul (get w i j) (cv la))).
  assert (X : exists q', (if is0 la then Some q else m_add_in d q (m_prods d w la)) = Some q' /\ elems d q' r c Q).
  { unfold Q. destruct (is0 la); [exists q; auto|]. pose proof (const_elems d fmul w (cv la) r c Sw) as El.
    destruct (binary_in_elems d fadd q (m_prods d w la) r c (proj1 Eq) (proj1 El)) as (q' & E & Eq'). exists q'. split; [exact E|].
    eapply elems_ext; [exact Eq'|]. intros i j Hi Hj. cbn beta. rewrite (proj2 Eq i j Hi Hj). unfold m_prods. rewrite (proj2 El i j Hi Hj). reflexivity. }
  destruct X as (q' & -> & Eq'). cbn [bind]. rewrite (lamb_norm_eq 0 w r c Sw), (lamb_norm_eq 1 q' r c (proj1 Eq')). cbn [bind].
  destruct (pms_elems d (mo_b3 d s2) q' (fmul al (trust_ratio (norm_of 0 w) (norm_of 1 q'))) r c S5 (proj1 Eq')) as (b3 & -> & Eb). cbn [bind].
  eexists _, _, q'. split; [reflexivity|]. unfold moments_shaped, set_b3. cbn [mo_1 mo_2 mo_b1 mo_b2 mo_b3]. cbv zeta. split; [repeat split; first [apply S1|apply S2|apply S3|apply S4|apply Eb]|]. split; [apply Eb|]. split; [apply Eq'|]. intros i j Hi Hj.
  rewrite E21, (E11 i j Hi Hj), (E22 i j Hi Hj), E12. split; [reflexivity|]. split; [reflexivity|].
  split; [|apply (proj2 Eb i j Hi Hj)]. rewrite (proj2 Eq' i j Hi Hj). unfold Q. cbv zeta. rewrite E21, (E11 i j Hi Hj), (E22 i j Hi Hj), E12. reflexivity.
Qed.
End Update.

(** lists and matrices *)
Lemma within_sized B r c (x : mat) : within d B r c x -> sized B (data x) /\ length (data x) = (r * c)%nat.
Proof.
  intros (W & R1 & C1 & H). assert (L : length (data x) = (r * c)%nat) by (unfold wf in W; rewrite W, R1, C1; reflexivity). split; [|exact L].
  apply Forall_forall. intros v Hv. destruct (In_nth (data x) v fzero Hv) as (k & Hk & <-). rewrite L in Hk. destruct (index_split r c k Hk) as (i & j & Hi & Hj & ->).
  pose proof (H i j Hi Hj) as G. rewrite (get_data fzero) in G by (auto; lia). rewrite C1 in G. exact G.
Qed.
Lemma forall_get (P : val d -> Prop) r c (x : mat) i j : shaped d x r c -> Forall P (data x) -> (i < r)%nat -> (j < c)%nat -> P (get x i j).
Proof.
  intros (W & R1 & C1) H Hi Hj. rewrite (get_data fzero) by (auto; lia). rewrite Forall_forall in H. apply H, nth_In. unfold wf in W. rewrite W, R1, C1. now apply index_lt.
Qed.
Lemma seen_exists r c (x : mat) : shaped d x r c -> seen r c x -> Exists (fun v => visible d <= Rabs (real v)) (data x).
Proof.
  intros (W & R1 & C1) (i & j & Hi & Hj & H). unfold at_ in H. rewrite (get_data fzero) in H by (auto; lia). rewrite C1 in H. apply Exists_exists. eexists. split; [|exact H].
  apply nth_In. unfold wf in W. rewrite W, R1, C1. now apply index_lt.
Qed.

(** the direction *)
Lemma direction_ok K (a x : val d) (la : val F64) : 1 <= K <= 2 ^ 12 -> rate 1 la -> finite a -> Rabs (real a) <= K * (1 + / 2 ^ 20) -> finite x -> Rabs (real x) <= lamb_max d ->
  let q := if is0 la then a else fadd a (fmul x (cv la)) in
  finite q /\ Rabs (real q - real la * real x) <= 1.01 * K + 4 * u d * (real la * Rabs (real x)) /\ Rabs (real q) <= 2 * lamb_max d.
Proof.
  intros HK Hl Fa La Fx Lx q. destruct Hl as (Fl & Pl). destruct (t_facts d) as (_ & _ & _ & _ & _ & _ & _ & HH & R5 & LN & L30 & _). pose proof (u_small d) as HU. pose proof (tiny_small d) as Hh. pose proof (Rabs_pos (real x)) as Px.
  assert (PLx : 0 <= real la * Rabs (real x)) by (apply Rmult_le_pos; lra). assert (LLx : real la * Rabs (real x) <= lamb_max d). { apply Rle_trans with (1 * lamb_max d); [apply Rmult_le_compat; lra|lra]. }
  assert (KK : K * (1 + / 2 ^ 20) <= 1.001 * K) by lra.
  assert (Z : finite q /\ Rabs (real q - real la * real x) <= 1.01 * K + 4 * u d * (real la * Rabs (real x))).
  { unfold q. destruct (is0 la) eqn:Z.
    - apply is0_spec in Z; [|exact Fl]. split; [exact Fa|]. rewrite Z, Rmult_0_l, Rminus_0_r. assert (0 <= 4 * u d * (0 * Rabs (real x))) by lra. lra.
    - destruct (conv_factor d la Fl Pl) as (Fc & Pc & Ec).
      assert (X1 : Rabs (real x * real (cv la)) <= 2 ^ 10 * n_high d). { rewrite Rabs_mult, (Rabs_right (real (cv la))) by lra. apply Rle_trans with (lamb_max d * 1); [apply Rmult_le_compat; lra|lra]. }
      destruct (t_facts d) as (_ & _ & _ & _ & _ & R4 & N40 & _).
      destruct (mul_op x (cv la) _ Fx Fc R4 X1) as (Fp & Lp & Np). unfold near_to in Np. set (p := fmul x (cv la)) in *.
      assert (Np2 : Rabs (real p - real la * real x) <= 2.01 * u d * (real la * Rabs (real x)) + / 2 ^ 100).
      { rewrite Rabs_mult, (Rabs_right (real (cv la))) in Np by lra. pose proof (Rabs_triang (real p - real x * real (cv la)) (real x * (real (cv la) - real la))) as T.
        replace (real p - real x * real (cv la) + real x * (real (cv la) - real la)) with (real p - real la * real x) in T by ring. rewrite (Rabs_mult (real x)) in T.
        assert (Y1 : Rabs (real x) * Rabs (real (cv la) - real la) <= Rabs (real x) * (u d * real la + half_tiny d)) by (apply Rmult_le_compat_l; lra).
        assert (Y2 : Rabs (real x) * half_tiny d <= / 2 ^ 119). { apply Rle_trans with (2 * lamb_max d * half_tiny d); [apply Rmult_le_compat_r; lra|exact HH]. }
        apply rabs_le in Ec. assert (Y3 : Rabs (real x) * real (cv la) <= Rabs (real x) * (real la + (u d * real la + half_tiny d))) by (apply Rmult_le_compat_l; lra).
        set (z := real la * Rabs (real x)) in *. replace (Rabs (real x) * (u d * real la + half_tiny d)) with (u d * z + Rabs (real x) * half_tiny d) in Y1 by (unfold z; ring).
        replace (Rabs (real x) * (real la + (u d * real la + half_tiny d))) with (z + u d * z + Rabs (real x) * half_tiny d) in Y3 by (unfold z; ring).
        assert (Y4 : u d * (Rabs (real x) * real (cv la)) <= u d * (z + u d * z + / 2 ^ 119)) by (apply Rmult_le_compat_l; lra).
        assert (Puz : 0 <= u d * z) by (apply Rmult_le_pos; lra). assert (u d * (u d * z) <= / 2 ^ 24 * (u d * z)) by (apply Rmult_le_compat_r; lra). assert (u d * / 2 ^ 119 <= / 2 ^ 24 * / 2 ^ 119) by (apply Rmult_le_compat_r; lra). lra. }
      assert (X2 : Rabs (real a + real p) <= 2 ^ 11 * n_high d). { eapply Rle_trans; [apply Rabs_triang|]. lra. }
      destruct (add_op a p _ Fa Fp R5 X2) as (Fs & _ & Ns). split; [exact Fs|].
      pose proof (Rabs_triang (real (fadd a p) - (real a + real p)) (real a + (real p - real la * real x))) as T1. replace (real (fadd a p) - (real a + real p) + (real a + (real p - real la * real x))) with (real (fadd a p) - real la * real x) in T1 by ring.
      pose proof (Rabs_triang (real a) (real p - real la * real x)) as T2. pose proof (Rabs_triang (real a) (real p)) as T3.
      pose proof (Rabs_triang (real p - real la * real x) (real la * real x)) as T4. replace (real p - real la * real x + real la * real x) with (real p) in T4 by ring. rewrite (Rabs_mult (real la)), (Rabs_right (real la)) in T4 by lra.
      set (z := real la * Rabs (real x)) in *. set (uz := u d * z). assert (Puz : 0 <= uz) by (apply Rmult_le_pos; lra). replace (2.01 * u d * z) with (2.01 * uz) in Np2 by (unfold uz; ring). replace (4 * u d * z) with (4 * uz) by (unfold uz; ring).
      assert (U1 : u d * Rabs (real a + real p) <= u d * (1.001 * K + z + (2.01 * uz + / 2 ^ 100))) by (apply Rmult_le_compat_l; lra).
      replace (u d * (1.001 * K + z + (2.01 * uz + / 2 ^ 100))) with (u d * (1.001 * K + / 2 ^ 100) + uz + u d * (2.01 * uz)) in U1 by (unfold uz; ring).
      assert (u d * (2.01 * uz) <= / 2 ^ 24 * (2.01 * uz)) by (apply Rmult_le_compat_r; lra). assert (u d * (1.001 * K + / 2 ^ 100) <= / 2 ^ 24 * (1.001 * K + / 2 ^ 100)) by (apply Rmult_le_compat_r; lra). lra. }
  destruct Z as (Fq & Eq). split; [exact Fq|]. split; [exact Eq|].
  pose proof (Rabs_triang (real q - real la * real x) (real la * real x)) as T4. replace (real q - real la * real x + real la * real x) with (real q) in T4 by ring. rewrite (Rabs_mult (real la)), (Rabs_right (real la)) in T4 by lra.
  assert (u d * (real la * Rabs (real x)) <= / 2 ^ 24 * (real la * Rabs (real x))) by (apply Rmult_le_compat_r; lra). lra.
Qed.
End Lamb.
