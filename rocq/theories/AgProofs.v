(** * Backward: the results behind the property theorems *)
From Coq Require Import List Arith ZArith Bool Lia Permutation.
From Verif Require Import AgModel AgSpec AgLemmas AgSeq AgConc AgErase.
Import ListNotations.

Lemma flat_map_perm {A B} (f : A -> list B) l1 l2 :
  Permutation l1 l2 -> Permutation (flat_map f l1) (flat_map f l2).
Proof.
  induction 1 as [|a l l' H IH|a b l|l l' l'' H1 IH1 H2 IH2]; cbn [flat_map].
  - constructor.
  - now apply Permutation_app_head.
  - rewrite !app_assoc. apply Permutation_app_tail. apply Permutation_app_comm.
  - etransitivity; eassumption.
Qed.

Lemma flat_map_ext_in {A B} (f h : A -> list B) l :
  (forall a, In a l -> f a = h a) -> flat_map f l = flat_map h l.
Proof.
  induction l as [|a l IH]; intros H; [reflexivity|]. cbn. rewrite H by now left. f_equal. apply IH.
  intros; apply H; now right.
Qed.

Section Proofs.
Context {G : Type}.
Variable gadd : G -> G -> G.
Variable gone : G.
Notation graph := (@graph G).
Notation mem := (@mem G).

(** ** The sequential part *)
Section OneCall.
Variable g : graph.
Hypothesis Hacyc : acyclic g.
Variables (m : mem) (xs : list nat).
Hypothesis Hready : ready g m.

Let ops := filter_operators g xs.

Lemma ops_oper x : In x ops -> is_oper g x = true.
Proof. unfold ops, filter_operators. intros H. apply filter_In in H. tauto. Qed.

Lemma ops_In x : In x ops <-> In x xs /\ is_oper g x = true.
Proof. unfold ops, filter_operators. apply filter_In. Qed.

Lemma reached_ops x : reached g ops x <-> reached g xs x.
Proof.
  split; induction 1 as [x H1 H2 H3|y x H1 IH H2 H3 H4].
  - apply reach_root; auto. apply ops_In in H1. tauto.
  - eapply reach_operand; eauto.
  - apply reach_root; auto. apply ops_In. auto.
  - eapply reach_operand; eauto.
Qed.

Lemma seed_ops x : seed gone g m ops x = seed gone g m xs x.
Proof.
  unfold seed. destruct (grad (m x)); [reflexivity|].
  replace (existsb (Nat.eqb x) ops && is_oper g x) with (existsb (Nat.eqb x) xs && is_oper g x); [reflexivity|].
  destruct (is_oper g x) eqn:E; [|now rewrite !andb_false_r]. rewrite !andb_true_r.
  apply eq_iff_eq_true. rewrite !existsb_exists. split; intros (y & Hy & Hxy); exists y; split; auto;
    apply Nat.eqb_eq in Hxy; subst y; apply ops_In in Hy || apply ops_In; tauto.
Qed.

(** The roots Backward complains about. *)
Definition missing_root (x : nat) : Prop :=
  In x xs /\ is_oper g x = true /\ grad (m x) = None /\ is_scalar g x = false.

Lemma seq_cases :
  (ops = [] /\ backward_seq gadd gone g m xs = SReturn m) \/
  (ops <> [] /\ (exists x, missing_root x) /\
     exists m' d r, backward_seq gadd gone g m xs = SError m' /\ ops = d ++ r /\
        AInv gadd gone g m ops d r m') \/
  (ops <> [] /\ (~ exists x, missing_root x) /\
     exists mP, backward_seq gadd gone g m xs = SConc (start mP ops) /\
        AInv gadd gone g m ops ops [] mP).
Proof.
  unfold backward_seq. fold ops. destruct ops as [|r0 rs] eqn:Eo; [left; auto|]. right.
  rewrite <- Eo. assert (Hne : ops <> []) by congruence. clear Eo.
  assert (Hroots : forall x, In x ops -> is_oper g x = true) by (intros; now apply ops_oper).
  destruct (prepare_all_ok gadd gone g Hacyc m ops Hroots Hready) as (m1 & Hm1 & HP).
  rewrite Hm1.
  pose proof (prepared_ainv gadd gone g m ops m1 Hready HP) as HA.
  destruct (assign_all_spec gadd gone g Hacyc m ops Hroots ops [] m1 (incl_refl _) HA) as [Hok Herr].
  destruct (existsb (missing g m) ops) eqn:Em.
  - left. split; [assumption|]. split.
    + apply existsb_exists in Em. destruct Em as (x & Hin & Hx). exists x.
      unfold missing in Hx. unfold missing_root. pose proof Hin as Hin'. apply ops_In in Hin.
      destruct (grad (m x)) eqn:E; [discriminate|]. apply negb_true_iff in Hx. tauto.
    + destruct (Herr eq_refl) as (m' & d & r & H1 & H2 & H3). exists m', d, r.
      rewrite H1. auto.
  - right. split; [assumption|]. split.
    + intros (x & H1 & H2 & H3 & H4). assert (Hin : In x ops) by (apply ops_In; auto).
      assert (existsb (missing g m) ops = true); [|congruence].
      apply existsb_exists. exists x. split; [assumption|]. unfold missing. now rewrite H3, H4.
    + destruct (Hok eq_refl) as (m' & H1 & H2 & _). exists m'. rewrite H1. auto.
Qed.

(** ** The concurrent part *)
Hypothesis Hsto : sends_to_operands g.
Hypothesis Hfrugal : frugal g.

Variable mP : mem.
Variable ex : nat -> Z.
Hypothesis Hex : forall x, (0 <= ex x)%Z.
Hypothesis HP : SInv g ex ops mP.

Let gu := eg g.
Let gam := gamma uadd gu (Ab gu (em mP)) (fun x => grad (em mP x)).

Let UInv (u : @config unit) := Inv uadd gu ex (em mP) gam u.

Definition U (c : @config G) : Prop := exists u, R c u /\ UInv u.

Let Ha := e_acyclic g Hacyc.
Let Hs := e_sto g Hsto.
Let Hf := e_frugal g Hfrugal.
Let HPu := e_sinv g ex ops mP HP.

Lemma Hrootsu : forall x, In x ops -> is_oper gu x = true.
Proof. intros x Hx. unfold gu. rewrite e_oper. now apply ops_oper. Qed.

Lemma Hgamu : forall x, gam x = AgSpec.oadd uadd (grad (em mP x))
  (osumn uadd (length gu) (fun y => if Ab gu (em mP) y then AgSpec.contribution uadd gu y (gam y) x else None)).
Proof. intros x. exact (gamma_eq uadd gu Ha Hs (Ab gu (em mP)) (fun x => grad (em mP x)) x). Qed.

Lemma UInv_start : UInv (start (em mP) ops).
Proof.
  exact (inv_start uadd gu Ha ex (em mP) ops HPu Hrootsu gam Hgamu).
Qed.

Lemma UInv_step u u' : UInv u -> step uadd gu u u' -> UInv u'.
Proof.
  exact (inv_step uadd uadd_comm uadd_assoc gu Ha Hs Hf ex (em mP) ops Hex HPu gam Hgamu u u').
Qed.

Lemma U_start : U (start mP ops).
Proof. exists (start (em mP) ops). split; [apply R_start|apply UInv_start]. Qed.

Lemma U_step c c' : U c -> step gadd g c c' -> U c'.
Proof.
  intros (u & HR & HI) Hst. destruct (sim gadd g c u c' HR Hst) as (u' & Hu & HR').
  exists u'. split; [assumption|]. eapply UInv_step; eauto.
Qed.

Lemma U_steps c c' : U c -> steps gadd g c c' -> U c'.
Proof. intros HU H. induction H as [|c1 c2 H IH Hst]; [assumption|]. eapply U_step; eauto. Qed.

Lemma U_reach c : steps gadd g (start mP ops) c -> U c.
Proof. apply U_steps. apply U_start. Qed.

(** [Abx]: the operators the pass goes through. *)
Lemma Abu_reached x : Ab gu (em mP) x = true <-> reached g xs x.
Proof.
  rewrite (Ab_reached gu ex (em mP) ops HPu). unfold gu. rewrite <- e_reached. apply reached_ops.
Qed.

Lemma U_panic c : U c -> cpanic c = false.
Proof. intros (u & HR & HI). rewrite <- (r_panic _ _ HR). apply (i_panic _ _ _ _ _ _ HI). Qed.

Lemma sim_run (f : nat -> config) : U (f 0) -> (forall i, step gadd g (f i) (f (S i))) -> False.
Proof.
  intros H0 Hst.
  assert (HU : forall i, U (f i)) by (induction i as [|i IH]; [assumption|eapply U_step; eauto]).
  (* the measure of the erased state *)
  set (w := fun c : @config G => mu gu (mkC (em (cmem c)) (fun x => epc (cpc c x)) (cstack c) (cwg c)
                                 (map (fun p => (fst p, tt)) (clog c)) (cret c) (cpanic c))).
  assert (Hw : forall c u, R c u -> mu gu u = w c).
  { intros c u HR. unfold w, mu. cbn [cpc cstack cret]. destruct HR. rewrite r_stack, r_ret.
    f_equal. f_equal. apply sumZ_ext. intros y _. now rewrite r_pc. }
  assert (Hdec : forall i, (w (f (S i)) < w (f i))%Z).
  { intros i. destruct (HU i) as (u & HR & HI). destruct (sim gadd g _ u _ HR (Hst i)) as (u' & Hu & HR').
    rewrite <- (Hw _ _ HR), <- (Hw _ _ HR').
    exact (mu_step uadd gu ex (em mP) gam u u' HI Hu). }
  assert (Hm : forall i, (w (f i) + Z.of_nat i <= w (f O))%Z).
  { induction i as [|i IH]; [lia|]. specialize (Hdec i). lia. }
  specialize (Hm (S (Z.to_nat (w (f 0))))).
  pose proof (mu_nonneg gu (mkC (em (cmem (f (S (Z.to_nat (w (f 0))))))) (fun x => epc (cpc (f (S (Z.to_nat (w (f 0))))) x)) (cstack (f (S (Z.to_nat (w (f 0)))))) (cwg (f (S (Z.to_nat (w (f 0))))))
                                 (map (fun p => (fst p, tt)) (clog (f (S (Z.to_nat (w (f 0))))))) (cret (f (S (Z.to_nat (w (f 0)))))) (cpanic (f (S (Z.to_nat (w (f 0)))))))) as H1.
  fold (w (f (S (Z.to_nat (w (f 0)))))) in H1. lia.
Qed.

Lemma dutiful_def : (forall x, ex x = 0%Z) -> dutiful g ->
  forall x, Ab gu (em mP) x = true -> def gu ex (em mP) x = 0%Z.
Proof.
  intros Hex0 Hd x Hx. unfold def. rewrite Hex0, Z.add_0_l. apply sumZ_zero. intros y _. destruct (Ab gu (em mP) y); [|reflexivity].
  assert (Hop : is_oper g x = true).
  { rewrite <- (e_oper g). apply (Ab_oper _ _ _ Hx). }
  assert (Hr : requires g x = true).
  { rewrite <- (e_requires g). exact (Ab_requires gu Ha ex (em mP) ops HPu x Hx). }
  rewrite stargets_cnt by (unfold gu; now rewrite e_requires). unfold gu.
  rewrite e_operands, e_sends, e_targets, !cnt_count, (Hd y x Hop Hr). lia.
Qed.

Lemma U_progress c : (forall x, ex x = 0%Z) -> dutiful g -> U c -> cret c = false ->
  exists c', step gadd g c c'.
Proof.
  intros Hex0 Hd (u & HR & HI) Hr.
  assert (Hru : cret u = false) by (rewrite (r_ret _ _ HR); assumption).
  destruct (progress uadd gu Ha Hs ex (em mP) gam u HI (dutiful_def Hex0 Hd) Hru) as (u' & Hu).
  exact (sim_back gadd g c u u' HR Hu).
Qed.

Lemma U_hang c x y : U c -> reached g xs y -> reached g xs x ->
  count_occ Nat.eq_dec (map fst (sends_of g y)) x < count_occ Nat.eq_dec (operands_of g y) x ->
  cret c = false.
Proof.
  intros (u & HR & HI) Hy Hx Hlt. rewrite <- (r_ret _ _ HR).
  apply Abu_reached in Hx. apply Abu_reached in Hy.
  apply (deficit_hangs uadd gu Ha Hf ex (em mP) ops Hex HPu gam u x HI Hx).
  assert (Hr : requires gu x = true) by exact (Ab_requires gu Ha ex (em mP) ops HPu x Hx).
  unfold def. specialize (Hex x).
  match goal with |- (0 < ex x + ?s)%Z => cut (0 < s)%Z; [lia|] end.
  pose proof (sumZ_ge (length gu) (fun y0 => if Ab gu (em mP) y0 then (cnt x (operands_of gu y0) - cnt x (stargets gu y0))%Z else 0%Z) y) as Hge.
  cbv beta in Hge. rewrite Hy in Hge. eapply Z.lt_le_trans; [|apply Hge].
  - rewrite stargets_cnt by assumption. unfold gu. rewrite e_operands, e_sends, e_targets, !cnt_count. lia.
  - intros z _. destruct (Ab gu (em mP) z); [|lia].
    exact (def_term gu Ha Hf ex (em mP) ops HPu x z Hx).
  - exact (Ab_lt gu (em mP) y Hy).
Qed.

Lemma U_hang_extra c x : U c -> reached g xs x -> (0 < ex x)%Z -> cret c = false.
Proof.
  intros (u & HR & HI) Hx Hpos. rewrite <- (r_ret _ _ HR). apply Abu_reached in Hx.
  apply (deficit_hangs uadd gu Ha Hf ex (em mP) ops Hex HPu gam u x HI Hx).
  unfold def.
  match goal with |- (0 < ex x + ?s)%Z => cut (0 <= s)%Z; [lia|] end.
  apply sumZ_nonneg. intros z _. destruct (Ab gu (em mP) z); [|lia].
  exact (def_term gu Ha Hf ex (em mP) ops HPu x z Hx).
Qed.

(** ** The gradient read is never changed afterwards *)
Definition LogOk (c : @config G) : Prop :=
  forall x v, In (x, v) (clog c) -> grad (cmem c x) = Some v.

Lemma U_log_ran c x v : U c -> In (x, v) (clog c) -> ran (cpc c x) = true.
Proof.
  intros (u & HR & HI) Hin.
  assert (Hu : In (x, tt) (clog u)).
  { rewrite (r_log _ _ HR). apply in_map_iff. exists (x, v). auto. }
  destruct (i_log _ _ _ _ _ _ HI x tt Hu) as [_ Hr]. rewrite (r_pc _ _ HR) in Hr.
  destruct (cpc c x); cbn in *; auto; discriminate.
Qed.

Lemma U_send_not_ran c x l t v p : U c -> cpc c x = GSend l -> In (t, v, p) l -> isclose p = false ->
  ran (cpc c t) = false.
Proof.
  intros (u & HR & HI) Hpc Hin Hc.
  assert (Hu : cpc u x = GSend (map ee l)) by (rewrite (r_pc _ _ HR), Hpc; reflexivity).
  assert (Hi : In (t, tt, p) (map ee l)) by (apply in_map_iff; exists (t, v, p); auto).
  pose proof (send_not_ran uadd gu Ha Hf ex (em mP) ops Hex HPu gam u x _ t tt p HI Hu Hi Hc) as Hr.
  rewrite (r_pc _ _ HR) in Hr. destruct (cpc c t); cbn in *; auto.
Qed.

Lemma LogOk_step c c' : U c -> LogOk c -> step gadd g c c' -> LogOk c'.
Proof.
  intros HU HL Hst. pose proof HU as HU0. unfold LogOk in *. destruct Hst;
    cbn [with_stack with_wg with_pc with_mem with_log with_ret with_panic cmem clog]; auto.
  - intros z w Hz. unfold modify. destruct (Nat.eq_dec z x) as [->|Hne].
    + rewrite upd_same. cbn. auto.
    + rewrite upd_other by assumption. auto.
  - intros z w [Hz|Hz]; [injection Hz as <- <-; assumption|auto].
  - assert (Hin : In (t, v, p) (l1 ++ (t, v, p) :: l2)) by (apply in_or_app; right; now left).
    assert (Hm : forall f z w, (forall s, grad (f s) = grad s) -> In (z, w) (clog c) ->
              grad (modify (cmem c) t f z) = Some w).
    { intros f z w Hfs Hz. destruct (Nat.eq_dec z t) as [->|Hne].
      - rewrite modify_same, Hfs. auto.
      - rewrite modify_other by assumption. auto. }
    destruct p; cbn [acc_step].
    + cbn [with_pc with_mem cmem clog]. intros z w Hz. destruct (Nat.eq_dec z t) as [->|Hne].
      * pose proof (U_log_ran c t w HU0 Hz) as H1.
        rewrite (U_send_not_ran c x _ t v AVal HU0 H0 Hin eq_refl) in H1. discriminate.
      * rewrite modify_other by assumption. auto.
    + cbn [with_pc cmem clog]. auto.
    + cbn [with_pc with_mem cmem clog]. intros z w. now apply Hm.
    + destruct (bch (cmem c t)); cbn [with_pc with_mem with_panic cmem clog]; auto.
  - intros z w Hz. destruct (Nat.eq_dec z x) as [->|Hne].
    + rewrite modify_same. cbn. auto.
    + rewrite modify_other by assumption. auto.
Qed.

Lemma LogOk_reach c : steps gadd g (start mP ops) c -> LogOk c.
Proof.
  intros H. induction H as [|c1 c2 H IH Hst].
  - intros x v [].
  - eapply LogOk_step; eauto. now apply U_reach.
Qed.

(** ** Every gradient is the sum of the contributions, in some order *)
Definition contribs (y : nat) (v : G) (x : nat) : list G :=
  map (fun p => snd p v) (filter (fun p => Nat.eqb (fst p) x && requires g x) (sends_of g y)).

Definition avals (p : @gpc G) (x : nat) : list G :=
  match p with
  | GSend l => flat_map (fun e => let '(t, v, q) := e in if Nat.eqb t x && isval q then [v] else []) l
  | _ => []
  end.

Definition undv (c : @config G) (x : nat) : list G :=
  flat_map (fun y => avals (cpc c y) x) (seq 0 (length g)).

Definition logv (c : @config G) (x : nat) : list G :=
  flat_map (fun e => contribs (fst e) (snd e) x) (clog c).

Definition Hist (c : @config G) : Prop := forall x, exists h,
  grad (cmem c x) = fold_left (acc gadd) h (grad (mP x)) /\ Permutation (h ++ undv c x) (logv c x).

Lemma undv_upd (pc : nat -> gpc) y p x : y < length g ->
  Permutation (flat_map (fun z => avals (upd pc y p z) x) (seq 0 (length g)))
     (avals p x ++ flat_map (fun z => avals (upd pc y GNone z) x) (seq 0 (length g))).
Proof.
  intros Hy. assert (Hin : In y (seq 0 (length g))) by (apply in_seq; lia).
  apply in_split in Hin. destruct Hin as (l1 & l2 & E). pose proof (seq_NoDup (length g) 0) as Hnd.
  rewrite E in *. rewrite !flat_map_app. cbn [flat_map]. rewrite !upd_same. cbn [avals app].
  assert (Hx : forall q l, ~ In y l -> flat_map (fun z => avals (upd pc y q z) x) l = flat_map (fun z => avals (pc z) x) l).
  { intros q l Hl. apply flat_map_ext_in. intros a Ha'. rewrite upd_other; [reflexivity|]. intros ->. auto. }
  apply NoDup_remove_2 in Hnd. rewrite in_app_iff in Hnd.
  rewrite !Hx by tauto. rewrite !app_assoc. apply Permutation_app_tail. apply Permutation_app_comm.
Qed.

Lemma undv_same (pc : nat -> gpc) y p x : avals p x = avals (pc y) x ->
  flat_map (fun z => avals (upd pc y p z) x) (seq 0 (length g)) = flat_map (fun z => avals (pc z) x) (seq 0 (length g)).
Proof.
  intros H. apply flat_map_ext_in. intros a _. destruct (Nat.eq_dec a y) as [->|Hne].
  - now rewrite upd_same.
  - now rewrite upd_other.
Qed.

Lemma upd_id_flat (pc : nat -> gpc) y x :
  flat_map (fun z => avals (pc z) x) (seq 0 (length g)) =
  flat_map (fun z => avals (upd pc y (pc y) z) x) (seq 0 (length g)).
Proof. symmetry. now apply undv_same. Qed.

Lemma U_pc_lt c x : U c -> cpc c x <> GNone -> x < length g.
Proof.
  intros (u & HR & HI) Hpc. rewrite <- (e_len g). apply (Ab_lt gu (em mP)).
  apply (inv_pc_A uadd gu ex (em mP) gam u x HI). rewrite (r_pc _ _ HR). destruct (cpc c x); cbn; congruence.
Qed.

Lemma fresh_avals x v t :
  avals (GSend (map (fun p => (fst p, snd p v, AVal)) (live_sends g x))) t = contribs x v t.
Proof.
  cbn [avals]. unfold contribs, live_sends. induction (sends_of g x) as [|[k f] l IH]; [reflexivity|].
  cbn [filter fst]. destruct (requires g k) eqn:Er.
  - cbn [map flat_map fst snd isval]. rewrite andb_true_r. destruct (Nat.eqb_spec k t) as [->|Hne].
    + rewrite Er in *. cbn [andb map app snd]. now rewrite IH.
    + cbn [andb app]. exact IH.
  - destruct (Nat.eqb_spec k t) as [->|Hne]; [|exact IH]. rewrite Er in *. exact IH.
Qed.

Lemma Hist_step c c' : U c -> Hist c -> step gadd g c c' -> Hist c'.
Proof.
  intros HU HH Hst.
  assert (Hlt : forall x, cpc c x <> GNone -> x < length g) by (intros; eapply U_pc_lt; eauto).
  assert (Hpc : forall x p c1, (forall z, grad (cmem c1 z) = grad (cmem c z)) -> clog c1 = clog c ->
     cpc c1 = upd (cpc c) x p -> (forall z, avals p z = avals (cpc c x) z) -> Hist c1).
  { intros x p c1 Hm Hl Hp Ha' z. destruct (HH z) as (h & H1 & H2). exists h. rewrite Hm. split; [assumption|].
    unfold undv, logv. rewrite Hp, Hl, undv_same; [assumption|]. apply Ha'. }
  assert (Hsame : forall c1, (forall z, grad (cmem c1 z) = grad (cmem c z)) -> clog c1 = clog c ->
     cpc c1 = cpc c -> Hist c1).
  { intros c1 Hm Hl Hp z. destruct (HH z) as (h & H1 & H2). exists h. rewrite Hm. split; [assumption|].
    unfold undv, logv. now rewrite Hp, Hl. }
  assert (Hgm : forall t f z, (forall s, grad (f s) = grad s) -> grad (modify (cmem c) t f z) = grad (cmem c z)).
  { intros t f z Hfs. destruct (Nat.eq_dec z t) as [->|Hne]; [now rewrite modify_same|now rewrite modify_other]. }
  destruct Hst.
  - now apply Hsame.
  - apply Hsame; try reflexivity. intros z. now apply Hgm.
  - assert (Hg0 : cpc c x = GNone).
    { destruct HU as (u & HR & HI). rewrite <- (r_stack _ _ HR) in H1.
      destruct (i_stack _ _ _ _ _ _ HI x st H1) as (_ & Hn & _). rewrite (r_pc _ _ HR) in Hn.
      destruct (cpc c x); try discriminate; reflexivity. }
    apply (Hpc x GIdleChk); try reflexivity. intros z. now rewrite Hg0.
  - now apply Hsame.
  - apply (Hpc x (if bstate_eqb (bst (cmem c x)) Idle then GRead else GPendChk)); try reflexivity.
    intros z. rewrite H0. now destruct (bstate_eqb _ _).
  - apply (Hpc x (if Z.eqb (pend (cmem c x)) 0 then GRead else GWait)); try reflexivity.
    intros z. rewrite H0. now destruct (Z.eqb _ _).
  - apply (Hpc x GRead); try reflexivity. intros z. now rewrite H0.
  - (* read *)
    intros z. destruct (HH z) as (h & Hh1 & Hh2). exists h. split; [exact Hh1|].
    unfold undv, logv. cbn [with_log with_pc cmem cpc clog flat_map fst snd].
    rewrite (undv_upd (cpc c) x _ z) by (apply Hlt; congruence). rewrite fresh_avals.
    unfold undv in Hh2. rewrite (undv_same (cpc c) x GNone z) by now rewrite H0.
    rewrite app_assoc. rewrite (Permutation_app_comm h). rewrite <- app_assoc.
    now apply Permutation_app_head.
  - apply (Hpc x GIdle); try reflexivity. intros z. now rewrite H0.
  - (* one step of an AccGrad *)
    assert (Hav : forall q, isval p = false -> isval q = false -> forall z, avals (GSend (l1 ++ (t, v, q) :: l2)) z = avals (cpc c x) z).
    { intros q E1 E2 z. rewrite H0. cbn [avals]. rewrite !flat_map_app. cbn [flat_map]. now rewrite E1, E2. }
    assert (Hav0 : isval p = false -> forall z, avals (GSend (l1 ++ l2)) z = avals (cpc c x) z).
    { intros E1 z. rewrite H0. cbn [avals]. rewrite !flat_map_app. cbn [flat_map]. now rewrite E1, andb_false_r. }
    destruct p; cbn [acc_step].
    + set (k := if is_oper g t then Some AChk else None).
      set (l' := l1 ++ match k with Some p' => (t, v, p') :: l2 | None => l2 end).
      assert (Hl' : forall z, avals (GSend l') z = avals (GSend (l1 ++ l2)) z).
      { intros z. unfold l', k. destruct (is_oper g t); [|reflexivity]. cbn [avals].
        rewrite !flat_map_app. cbn [flat_map isval]. now rewrite andb_false_r. }
      intros z. destruct (HH z) as (h & Hh1 & Hh2).
      unfold undv, logv. cbn [with_pc with_mem cmem cpc clog].
      unfold undv, logv in Hh2.
      rewrite (upd_id_flat (cpc c) x) in Hh2.
      rewrite (undv_upd (cpc c) x (cpc c x) z) in Hh2 by (apply Hlt; congruence).
      rewrite H0 in Hh2. cbn [avals] in Hh2. rewrite flat_map_app in Hh2. cbn [flat_map isval] in Hh2.
      rewrite andb_true_r in Hh2.
      destruct (Nat.eqb_spec t z) as [->|Hne].
      * exists (h ++ [v]). rewrite modify_same. cbn [grad set_grad]. split.
        { rewrite fold_left_app, <- Hh1. reflexivity. }
        rewrite (undv_upd (cpc c) x (GSend l') z) by (apply Hlt; congruence).
        rewrite Hl'. cbn [avals]. rewrite flat_map_app. rewrite <- Hh2.
        rewrite <- !app_assoc. apply Permutation_app_head. cbn [app].
        apply Permutation_middle.
      * exists h. rewrite modify_other by congruence. split; [assumption|].
        rewrite (undv_upd (cpc c) x (GSend l') z) by (apply Hlt; congruence).
        rewrite Hl'. cbn [avals]. rewrite flat_map_app. exact Hh2.
    + destruct (bstate_eqb (bst (cmem c t)) Idle).
      * apply (Hpc x (GSend (l1 ++ l2))); try reflexivity. now apply Hav0.
      * apply (Hpc x (GSend (l1 ++ (t, v, ADec) :: l2))); try reflexivity. now apply Hav.
    + destruct (Z.eqb _ _).
      * apply (Hpc x (GSend (l1 ++ (t, v, AClose) :: l2))); try reflexivity; [|now apply Hav].
        intros z. now apply Hgm.
      * apply (Hpc x (GSend (l1 ++ l2))); try reflexivity; [|now apply Hav0].
        intros z. now apply Hgm.
    + destruct (bch (cmem c t)); apply (Hpc x (GSend (l1 ++ l2))); try reflexivity; try (now apply Hav0).
      intros z. now apply Hgm.
  - apply (Hpc x GIdle); try reflexivity. intros z. now rewrite H0.
  - apply (Hpc x GWgDone); try reflexivity; [|intros z; now rewrite H0]. intros z. now apply Hgm.
  - apply (Hpc x GDone); try reflexivity. intros z. now rewrite H0.
Qed.

Lemma Hist_reach c : steps gadd g (start mP ops) c -> Hist c.
Proof.
  intros H. induction H as [|c1 c2 H IH Hst].
  - intros x. exists []. split; [reflexivity|]. unfold undv, logv. cbn.
    assert (E : flat_map (fun _ : nat => @nil G) (seq 0 (length g)) = []) by (induction (seq 0 (length g)); auto).
    rewrite E. constructor.
  - eapply Hist_step; eauto. now apply U_reach.
Qed.

(** ** After the return *)
Section Returned.
Variable c : @config G.
Hypothesis Hc : steps gadd g (start mP ops) c.
Hypothesis Hret : cret c = true.
Hypothesis HPA : AInv gadd gone g m ops ops [] mP.

Lemma ret_done x : reached g xs x -> cpc c x = GDone.
Proof.
  destruct (U_reach c Hc) as (u & HR & HI). intros Hx. apply Abu_reached in Hx.
  assert (Hru : cret u = true) by (rewrite (r_ret _ _ HR); assumption).
  pose proof (all_done uadd gu Ha ex (em mP) gam u x HI Hru Hx) as Hd.
  rewrite (r_pc _ _ HR) in Hd. destruct (cpc c x); try discriminate; reflexivity.
Qed.

Lemma ret_none x : ~ reached g xs x -> cpc c x = GNone.
Proof.
  destruct (U_reach c Hc) as (u & HR & HI). intros Hx.
  assert (HA : Ab gu (em mP) x = false).
  { destruct (Ab gu (em mP) x) eqn:E; [|reflexivity]. apply Abu_reached in E. contradiction. }
  pose proof (i_pcA _ _ _ _ _ _ HI x HA) as Hn. rewrite (r_pc _ _ HR) in Hn.
  destruct (cpc c x); try discriminate; reflexivity.
Qed.

Lemma reached_dec x : {reached g xs x} + {~ reached g xs x}.
Proof.
  destruct (Ab gu (em mP) x) eqn:E.
  - left. now apply Abu_reached.
  - right. intros H. apply Abu_reached in H. congruence.
Qed.

Lemma ret_log : NoDup (map fst (clog c)) /\ forall y, In y (map fst (clog c)) <-> reached g xs y.
Proof.
  destruct (U_reach c Hc) as (u & HR & HI).
  assert (Hm : map fst (clog u) = map fst (clog c)).
  { rewrite (r_log _ _ HR), map_map. reflexivity. }
  split; [rewrite <- Hm; apply (i_logd _ _ _ _ _ _ HI)|].
  intros y. rewrite <- Hm. split.
  - intros Hin. apply in_map_iff in Hin. destruct Hin as ([z []] & Hz & Hin). cbn in Hz. subst z.
    destruct (i_log _ _ _ _ _ _ HI y tt Hin) as [_ Hr]. apply Abu_reached.
    apply (inv_pc_A uadd gu ex (em mP) gam u y HI). intros E. rewrite E in Hr. discriminate.
  - intros Hy. pose proof (ret_done y Hy) as Hd.
    assert (Hr : ran (cpc u y) = true) by (rewrite (r_pc _ _ HR), Hd; reflexivity).
    destruct (i_ran _ _ _ _ _ _ HI y Hr) as (v & _ & Hin). apply in_map_iff. exists (y, v). auto.
Qed.

Lemma ret_undv x : undv c x = [].
Proof.
  unfold undv. induction (seq 0 (length g)) as [|y l IH]; [reflexivity|]. cbn [flat_map]. rewrite IH.
  destruct (reached_dec y) as [Hy|Hy].
  - now rewrite (ret_done y Hy).
  - now rewrite (ret_none y Hy).
Qed.

Lemma ret_frame x : ~ reached g xs x ->
  pend (cmem c x) = pend (mP x) /\ bst (cmem c x) = bst (mP x) /\ bch (cmem c x) = bch (mP x).
Proof.
  destruct (U_reach c Hc) as (u & HR & HI). intros Hx.
  assert (HA : Ab gu (em mP) x = false).
  { destruct (Ab gu (em mP) x) eqn:E; [|reflexivity]. apply Abu_reached in E. contradiction. }
  pose proof (i_frame _ _ _ _ _ _ HI x HA) as Hn. rewrite (r_mem _ _ HR) in Hn. exact Hn.
Qed.

Lemma ret_state x : reached g xs x -> bst (cmem c x) = Idle /\ pend (cmem c x) = 0%Z.
Proof.
  destruct (U_reach c Hc) as (u & HR & HI). intros Hx. apply Abu_reached in Hx.
  assert (Hru : cret u = true) by (rewrite (r_ret _ _ HR); assumption).
  pose proof (final_state uadd gu Ha ex (em mP) gam u HI Hru x Hx) as Hd.
  rewrite (r_mem _ _ HR) in Hd. exact Hd.
Qed.

Lemma ret_ready : ready g (cmem c).
Proof.
  intros x Hx. destruct (reached_dec x) as [Hr|Hr].
  - destruct (ret_state x Hr). auto.
  - destruct (ret_frame x Hr) as (H1 & H2 & H3). rewrite H1, H2.
    assert (Hb : bst (mP x) = Idle).
    { destruct (ai_idle _ _ _ _ _ _ _ _ HPA x Hx) as [Hp|]; [|assumption].
      apply (ai_pending _ _ _ _ _ _ _ _ HPA x Hx) in Hp. apply reached_ops in Hp. contradiction. }
    split; [assumption|]. intros Hreq. apply (ai_idle0 _ _ _ _ _ _ _ _ HPA); [|assumption].
    apply live_iff. auto.
Qed.

Lemma mP_grad x : grad (mP x) = oadd gadd (grad (m x)) (seed gone g m xs x).
Proof. rewrite (ai_grad _ _ _ _ _ _ _ _ HPA), seed_ops. reflexivity. Qed.

(** The contributions of the operators of [ys], from the final gradients. *)
Definition all_contribs (m' : mem) (ys : list nat) (x : nat) : list G :=
  flat_map (fun y => match grad (m' y) with Some v => contribs y v x | None => [] end) ys.

Lemma ret_grad x ys : lists_reached g xs ys -> exists order,
  Permutation order (all_contribs (cmem c) ys x) /\
  grad (cmem c x) = fold_left (acc gadd) order (oadd gadd (grad (m x)) (seed gone g m xs x)).
Proof.
  intros [Hnd Hys]. destruct (Hist_reach c Hc x) as (h & H1 & H2).
  exists h. rewrite <- mP_grad. split; [|assumption].
  rewrite ret_undv, app_nil_r in H2. rewrite H2. clear h H1 H2.
  unfold logv, all_contribs. destruct ret_log as [Hnl Hl].
  assert (Hperm : Permutation (map fst (clog c)) ys).
  { apply NoDup_Permutation; auto. intros y. now rewrite Hl, Hys. }
  rewrite <- (flat_map_perm _ _ _ Hperm). pose proof (LogOk_reach c Hc) as Hok.
  unfold LogOk in Hok. clear - Hok. induction (clog c) as [|[y v] l IH]; [constructor|].
  cbn [flat_map map fst snd]. rewrite (Hok y v) by now left.
  apply Permutation_app_head. apply IH. intros; apply Hok; now right.
Qed.

End Returned.
End OneCall.
End Proofs.
