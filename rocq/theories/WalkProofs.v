(** * Proofs about the traversal of parameters *)
From Coq Require Import List Arith Bool Permutation Lia.
From Verif Require Import WalkModel WalkSpec.
Import ListNotations.

Section Ind.
Variable P : gval -> Prop.
Hypothesis Po : P GOther.
Hypothesis Pn : P GNil.
Hypothesis Pm : P GModule.
Hypothesis Pp : forall p, P (GParam p).
Hypothesis Pt : forall m ps, P (GTraverser m ps).
Hypothesis Pmodel : forall id fs, Forall (fun f => P (snd f)) fs -> P (GModel id fs).
Hypothesis Psync : forall l, Forall (fun f => P (snd f)) l -> P (GSync l).
Hypothesis Pslice : forall l, Forall P l -> P (GSlice l).
Hypothesis Pmap : forall l, Forall (fun f => P (snd f)) l -> P (GMap l).
Fixpoint gval_rec' (v : gval) : P v :=
  let pairs := fix go l : Forall (fun f => P (snd f)) l :=
    match l with [] => Forall_nil _ | (b, x) :: l => @Forall_cons _ (fun f => P (snd f)) (b, x) l (gval_rec' x) (go l) end in
  match v with
  | GOther => Po | GNil => Pn | GModule => Pm | GParam p => Pp p | GTraverser m ps => Pt m ps
  | GModel id fs => Pmodel id fs (pairs fs)
  | GSync l => Psync l (pairs l)
  | GSlice l => Pslice l ((fix go l : Forall P l := match l with [] => Forall_nil _ | x :: l => @Forall_cons _ P x l (gval_rec' x) (go l) end) l)
  | GMap l => Pmap l (pairs l)
  end.
End Ind.

Lemma seen_app e e' : params_seen (e ++ e') = params_seen e ++ params_seen e'.
Proof. apply flat_map_app. Qed.
Lemma mseen_app e e' : models_seen (e ++ e') = models_seen e ++ models_seen e'.
Proof. apply flat_map_app. Qed.
Lemma seen_params ps : params_seen (map EParam ps) = ps /\ models_seen (map EParam ps) = [].
Proof. induction ps as [|p ps [IH1 IH2]]; [auto|]. cbn. unfold params_seen, models_seen in *. now rewrite IH1, IH2. Qed.

(** what a walk reports when it reports [obs] of the events *)
Lemma item_usable pt v : snd (walk_item pt v) = usable v.
Proof. destruct v; reflexivity. Qed.
Lemma item_unusable pt v : usable v = false -> walk_item pt v = ([], false).
Proof. destruct v; cbn; intros; try discriminate; reflexivity. Qed.

Section Exact.
(** [hold v]: what is held; [obs]: what is observed *)
Variable pt : traversal.
Variable obs : list event -> list nat.
Hypothesis obs_app : forall e e', obs (e ++ e') = obs e ++ obs e'.
Hypothesis obs_nil : obs [] = [].

Lemma slice_exact (hold : gval -> list nat) l : Forall (fun x => obs (fst (walk_item pt x)) = hold x) l -> forallb usable l = true ->
  obs (walk_slice (walk_item pt) l) = flat_map hold l.
Proof.
  induction 1 as [|x l Hx _ IH]; intros U; cbn [walk_slice flat_map]; [exact obs_nil|].
  cbn in U. apply andb_prop in U. destruct U as [U1 U2]. rewrite <- (item_usable pt) in U1. destruct (walk_item pt x) as [e ok]. cbn in Hx, U1. subst ok.
  rewrite obs_app, IH by exact U2. now rewrite Hx.
Qed.
Lemma map_exact (hold : gval -> list nat) l : Forall (fun x => obs (fst (walk_item pt (snd x))) = hold (snd x)) l ->
  forallb (fun e => fst e && usable (snd e)) l = true ->
  obs (walk_map (walk_item pt) l) = flat_map (fun e => hold (snd e)) l.
Proof.
  induction 1 as [|[k x] l Hx _ IH]; intros U; cbn [walk_map flat_map]; [exact obs_nil|].
  cbn [forallb fst snd] in U. apply andb_prop in U. destruct U as [U1 U2]. apply andb_prop in U1. destruct U1 as [-> U1]. cbn [snd] in Hx.
  rewrite <- (item_usable pt) in U1. destruct (walk_item pt x) as [e ok]. cbn in Hx, U1. subst ok.
  rewrite obs_app, IH by exact U2. cbn. now rewrite Hx.
Qed.
End Exact.

(** a walk never reports anything else, and nothing twice *)
Lemma subseq_app {A} (a a' b b' : list A) : subseq a b -> subseq a' b' -> subseq (a ++ a') (b ++ b').
Proof.
  intros H H'. induction H as [l|x l l' _ IH|x l l' _ IH]; cbn [app].
  - induction l as [|y l IHl]; [exact H'|]. now apply sub_skip.
  - now apply sub_skip.
  - now apply sub_take.
Qed.
Lemma subseq_refl {A} (l : list A) : subseq l l.
Proof. induction l; [apply sub_nil|now apply sub_take]. Qed.
Lemma subseq_nil {A} (l : list A) : subseq l [] -> l = [].
Proof. inversion 1. reflexivity. Qed.

Section Sub.
Variable pt : traversal.
Variable obs : list event -> list nat.
Hypothesis obs_app : forall e e', obs (e ++ e') = obs e ++ obs e'.
Hypothesis obs_nil : obs [] = [].
Variable hold : gval -> list nat.
Hypothesis H_slice : forall l, hold (GSlice l) = flat_map hold l.
Hypothesis H_map : forall l, hold (GMap l) = flat_map (fun e => hold (snd e)) l.
Hypothesis H_sync : forall l, hold (GSync l) = flat_map (fun e => hold (snd e)) l.

Lemma slice_sub l : Forall (fun x => subseq (obs (fst (walk_item pt x))) (hold x)) l -> subseq (obs (walk_slice (walk_item pt) l)) (flat_map hold l).
Proof.
  induction 1 as [|x l Hx _ IH]; cbn [walk_slice flat_map]; [rewrite obs_nil; apply sub_nil|].
  destruct (walk_item pt x) as [e ok]. cbn in Hx. destruct ok.
  - rewrite obs_app. now apply subseq_app.
  - rewrite <- (app_nil_r (obs e)). apply subseq_app; [exact Hx|apply sub_nil].
Qed.
Lemma map_sub l : Forall (fun x => subseq (obs (fst (walk_item pt (snd x)))) (hold (snd x))) l ->
  subseq (obs (walk_map (walk_item pt) l)) (flat_map (fun e => hold (snd e)) l).
Proof.
  induction 1 as [|[k x] l Hx _ IH]; cbn [walk_map flat_map]; [rewrite obs_nil; apply sub_nil|]. cbn [snd] in *.
  destruct k; [|rewrite obs_nil; apply sub_nil]. destruct (walk_item pt x) as [e ok]. cbn in Hx. destruct ok.
  - rewrite obs_app. now apply subseq_app.
  - rewrite <- (app_nil_r (obs e)). apply subseq_app; [exact Hx|apply sub_nil].
Qed.
(** from nested values to a field and to fields *)
Definition below (v : gval) : Prop := subseq (obs (walk_field (walk_item pt) v)) (hold v) /\ subseq (obs (fst (walk_item pt v))) (hold v).
Lemma fields_sub fs : Forall (fun f => below (snd f)) fs ->
  subseq (obs (walk_fields (walk_item pt) fs)) (flat_map (fun f : bool * gval => if fst f then hold (snd f) else []) fs).
Proof.
  induction 1 as [|[b v] fs Hx _ IH]; cbn [walk_fields flat_map fst snd]; [rewrite obs_nil; apply sub_nil|].
  rewrite obs_app. apply subseq_app; [|exact IH]. destruct b; [apply Hx|rewrite obs_nil; apply sub_nil].
Qed.
Lemma below_easy v : walk_field (walk_item pt) v = fst (walk_item pt v) -> subseq (obs (fst (walk_item pt v))) (hold v) -> below v.
Proof. intros E H. split; [now rewrite E|exact H]. Qed.
Lemma below_slice l : Forall (fun v => below v) l -> below (GSlice l).
Proof.
  intros F. split; [|cbn; rewrite obs_nil; apply sub_nil]. cbn [walk_field]. rewrite H_slice. apply slice_sub. eapply Forall_impl; [|exact F]. intros a [_ X]. exact X.
Qed.
Lemma below_map l : Forall (fun v => below (snd v)) l -> below (GMap l).
Proof.
  intros F. split; [|cbn; rewrite obs_nil; apply sub_nil]. cbn [walk_field]. rewrite H_map. apply map_sub. eapply Forall_impl; [|exact F]. intros a [_ X]. exact X.
Qed.
Lemma below_sync l : Forall (fun v => below (snd v)) l -> below (GSync l).
Proof.
  intros F. apply below_easy; [reflexivity|]. cbn [walk_item fst]. rewrite H_sync. apply map_sub. eapply Forall_impl; [|exact F]. intros a [_ X]. exact X.
Qed.
End Sub.

Lemma deep_below v : below (mkT true false true) params_seen (held true) v.
Proof.
  induction v using gval_rec'; try (apply below_easy; [reflexivity|cbn; apply sub_nil]).
  - apply below_easy; [reflexivity|]. apply subseq_refl.
  - apply below_easy; [reflexivity|]. cbn [walk_item fst on_params on_models]. destruct m; cbn [held]; rewrite app_nil_r, (proj1 (seen_params ps)); apply subseq_refl.
  - apply below_easy; [reflexivity|]. cbn [walk_item fst sub_models on_models app held]. apply fields_sub; auto using seen_app.
  - apply below_sync; auto using seen_app.
  - apply below_slice; auto using seen_app.
  - apply below_map; auto using seen_app.
Qed.
Lemma models_below v : below (mkT false true true) models_seen models v.
Proof.
  induction v using gval_rec'; try (apply below_easy; [reflexivity|cbn; apply sub_nil]).
  - apply below_easy; [reflexivity|]. destruct m; cbn; [apply subseq_refl|apply sub_nil].
  - apply below_easy; [reflexivity|]. cbn [walk_item fst sub_models on_models models].
    change (EModel id :: []) with ([EModel id]). rewrite mseen_app. cbn [models_seen flat_map app]. apply sub_take. apply fields_sub; auto using mseen_app.
  - apply below_sync; auto using mseen_app.
  - apply below_slice; auto using mseen_app.
  - apply below_map; auto using mseen_app.
Qed.

(** ** Tidy models *)
Lemma tidy_list l : fold_right (fun x P => tidy x /\ P) True l -> Forall tidy l.
Proof. induction l as [|x l IH]; cbn; [constructor|]. intros [H1 H2]. constructor; auto. Qed.
Lemma tidy_pairs (l : list (bool * gval)) : fold_right (fun (e : bool * gval) P => tidy (snd e) /\ P) True l -> Forall (fun e => tidy (snd e)) l.
Proof. induction l as [|x l IH]; cbn; [constructor|]. intros [H1 H2]. constructor; auto. Qed.
Lemma tidy_fields (l : list (bool * gval)) : fold_right (fun (f : bool * gval) P => (fst f = true -> tidy (snd f)) /\ P) True l -> Forall (fun e => fst e = true -> tidy (snd e)) l.
Proof. induction l as [|x l IH]; cbn; [constructor|]. intros [H1 H2]. constructor; auto. Qed.
Lemma forall_mp {A} (P Q : A -> Prop) l : Forall (fun x => P x -> Q x) l -> Forall P l -> Forall Q l.
Proof. induction 1; intros F; inversion F; subst; constructor; auto. Qed.

Section Tidy.
Variable pt : traversal.
Variable obs : list event -> list nat.
Hypothesis obs_app : forall e e', obs (e ++ e') = obs e ++ obs e'.
Hypothesis obs_nil : obs [] = [].
Variable hold : gval -> list nat.
Hypothesis H_slice : forall l, hold (GSlice l) = flat_map hold l.
Hypothesis H_map : forall l, hold (GMap l) = flat_map (fun e => hold (snd e)) l.
Hypothesis H_sync : forall l, hold (GSync l) = flat_map (fun e => hold (snd e)) l.
Hypothesis Sub : forall v, below pt obs hold v.
Hypothesis Empty : forall v, held true v = [] -> models v = [] -> hold v = [].

Definition exact (v : gval) : Prop := obs (walk_field (walk_item pt) v) = hold v /\ (usable v = true -> obs (fst (walk_item pt v)) = hold v).
Lemma exact_easy v : walk_field (walk_item pt) v = fst (walk_item pt v) -> obs (fst (walk_item pt v)) = hold v -> exact v.
Proof. intros E H. split; [now rewrite E|auto]. Qed.
Lemma exact_empty v : hold v = [] -> exact v.
Proof. intros E. destruct (Sub v) as [A B]. rewrite E in A, B. apply subseq_nil in A, B. split; congruence. Qed.
Lemma exact_fields fs : Forall (fun f => fst f = true -> exact (snd f)) fs ->
  obs (walk_fields (walk_item pt) fs) = flat_map (fun f : bool * gval => if fst f then hold (snd f) else []) fs.
Proof.
  induction 1 as [|[b v] fs Hx _ IH]; cbn [walk_fields flat_map fst snd]; [exact obs_nil|].
  rewrite obs_app, IH. f_equal. destruct b; [now apply Hx|exact obs_nil].
Qed.
Lemma use_list l : forallb usable l = true -> Forall exact l -> Forall (fun x => obs (fst (walk_item pt x)) = hold x) l.
Proof. intros U F. rewrite forallb_forall in U. apply Forall_forall. intros x Hx. rewrite Forall_forall in F. apply F; auto. Qed.
Lemma use_pairs l : forallb (fun e : bool * gval => fst e && usable (snd e)) l = true -> Forall (fun e => exact (snd e)) l -> Forall (fun x => obs (fst (walk_item pt (snd x))) = hold (snd x)) l.
Proof.
  intros U F. rewrite forallb_forall in U. apply Forall_forall. intros x Hx. rewrite Forall_forall in F. apply F; auto.
  specialize (U x Hx). now apply andb_prop in U.
Qed.
Lemma exact_slice l : tidy (GSlice l) -> Forall (fun v => tidy v -> exact v) l -> exact (GSlice l).
Proof.
  intros [[U|[A B]] T] F; [|apply exact_empty, Empty; assumption]. split; [|discriminate]. cbn [walk_field]. rewrite H_slice.
  apply slice_exact; auto. apply use_list; auto. eapply forall_mp; [exact F|now apply tidy_list].
Qed.
Lemma exact_map l : tidy (GMap l) -> Forall (fun v => tidy (snd v) -> exact (snd v)) l -> exact (GMap l).
Proof.
  intros [[U|[A B]] T] F; [|apply exact_empty, Empty; assumption]. split; [|discriminate]. cbn [walk_field]. rewrite H_map.
  apply map_exact; auto. apply use_pairs; auto. eapply forall_mp; [exact F|now apply tidy_pairs].
Qed.
Lemma exact_sync l : tidy (GSync l) -> Forall (fun v => tidy (snd v) -> exact (snd v)) l -> exact (GSync l).
Proof.
  intros [[U|[A B]] T] F; [|apply exact_empty, Empty; assumption]. apply exact_easy; [reflexivity|]. cbn [walk_item fst]. rewrite H_sync.
  apply map_exact; auto. apply use_pairs; auto. eapply forall_mp; [exact F|now apply tidy_pairs].
Qed.
End Tidy.

Lemma deep_exact v : tidy v -> exact (mkT true false true) params_seen (held true) v.
Proof.
  induction v using gval_rec'; intros T; try (apply exact_easy; [reflexivity|reflexivity]).
  - apply exact_easy; [reflexivity|]. cbn [walk_item fst on_params on_models]. destruct m; cbn [held]; rewrite app_nil_r; apply seen_params.
  - apply exact_easy; [reflexivity|]. cbn [walk_item fst sub_models on_models app held]. apply exact_fields; auto using seen_app.
    cbn [tidy] in T. apply tidy_fields in T. apply Forall_forall. intros f Hf E. rewrite Forall_forall in T, H. apply H; auto.
  - apply exact_sync; auto using seen_app, deep_below.
  - apply exact_slice; auto using seen_app, deep_below.
  - apply exact_map; auto using seen_app, deep_below.
Qed.
Lemma models_exact v : tidy v -> exact (mkT false true true) models_seen models v.
Proof.
  induction v using gval_rec'; intros T; try (apply exact_easy; [reflexivity|reflexivity]).
  - apply exact_easy; [reflexivity|]. destruct m; reflexivity.
  - apply exact_easy; [reflexivity|]. cbn [walk_item fst sub_models on_models models]. rewrite mseen_app. cbn [models_seen flat_map app]. f_equal.
    apply exact_fields; auto using mseen_app.
    cbn [tidy] in T. apply tidy_fields in T. apply Forall_forall. intros f Hf E. rewrite Forall_forall in T, H. apply H; auto.
  - apply exact_sync; auto using mseen_app, models_below.
  - apply exact_slice; auto using mseen_app, models_below.
  - apply exact_map; auto using mseen_app, models_below.
Qed.

(** ** Without sub-models *)
Fixpoint loose (v : gval) : list nat :=
  match v with
  | GParam p => [p]
  | GTraverser _ ps => ps
  | GSlice l => flat_map loose l
  | GMap l | GSync l => flat_map (fun e : bool * gval => loose (snd e)) l
  | _ => []
  end.
Lemma flat_map_nil {A B} (f : A -> list B) l : flat_map f l = [] <-> Forall (fun x => f x = []) l.
Proof.
  induction l as [|a l IH]; cbn; [split; auto|]. split.
  - intros H. apply app_eq_nil in H. destruct H. constructor; [assumption|]. now apply IH.
  - intros H. inversion H; subst. rewrite H2. now apply IH.
Qed.
Lemma loose_empty v : held true v = [] -> loose v = [].
Proof.
  induction v using gval_rec'; cbn [held loose]; auto.
  - destruct m; auto.
  - rewrite !flat_map_nil. apply forall_mp, H.
  - rewrite !flat_map_nil. apply forall_mp, H.
  - rewrite !flat_map_nil. apply forall_mp, H.
Qed.
Lemma loose_below v : below (mkT true false false) params_seen loose v.
Proof.
  induction v using gval_rec'; try (apply below_easy; [reflexivity|cbn; apply sub_nil]).
  - apply below_easy; [reflexivity|]. apply subseq_refl.
  - apply below_easy; [reflexivity|]. cbn [walk_item fst on_params on_models]. destruct m; cbn [loose]; rewrite app_nil_r, (proj1 (seen_params ps)); apply subseq_refl.
  - apply below_sync; auto using seen_app.
  - apply below_slice; auto using seen_app.
  - apply below_map; auto using seen_app.
Qed.
Lemma loose_exact v : tidy v -> exact (mkT true false false) params_seen loose v.
Proof.
  induction v using gval_rec'; intros T; try (apply exact_easy; [reflexivity|reflexivity]).
  - apply exact_easy; [reflexivity|]. cbn [walk_item fst on_params on_models]. destruct m; cbn [loose]; rewrite app_nil_r; apply seen_params.
  - apply exact_sync; auto using seen_app, loose_below, loose_empty.
  - apply exact_slice; auto using seen_app, loose_below, loose_empty.
  - apply exact_map; auto using seen_app, loose_below, loose_empty.
Qed.
Lemma loose_held v : no_own_traversal v -> loose v = held false v.
Proof.
  assert (Pl : forall l, Forall (fun v => no_own_traversal v -> loose v = held false v) l -> fold_right (fun x P => no_own_traversal x /\ P) True l -> flat_map loose l = flat_map (held false) l).
  { induction 1 as [|x l Hx _ IH]; cbn; auto. intros [H1 H2]. now rewrite Hx, IH. }
  assert (Pp : forall l : list (bool * gval), Forall (fun v => no_own_traversal (snd v) -> loose (snd v) = held false (snd v)) l ->
    fold_right (fun (e : bool * gval) P => no_own_traversal (snd e) /\ P) True l -> flat_map (fun e => loose (snd e)) l = flat_map (fun e => held false (snd e)) l).
  { induction 1 as [|x l Hx _ IH]; cbn; auto. intros [H1 H2]. now rewrite Hx, IH. }
  induction v using gval_rec'; cbn [no_own_traversal loose held]; auto.
  destruct m; auto.
Qed.

Lemma nil_fields (fs : list (bool * gval)) : flat_map (fun f : bool * gval => if fst f then @nil nat else []) fs = [].
Proof. induction fs as [|[[|] ?] fs IH]; cbn; auto. Qed.

(** ** The exported functions *)
Lemma for_each_exact m id fs : m = GModel id fs -> tidy m -> exists es, for_each_param m = Some es /\ params_seen es = params_of true m.
Proof.
  intros -> T. eexists. split; [reflexivity|]. cbn [params_of]. apply exact_fields; auto using seen_app.
  cbn [tidy] in T. apply tidy_fields in T. apply Forall_forall. intros f Hf E. rewrite Forall_forall in T. apply deep_exact; auto.
Qed.
Lemma for_each_traverser o ps : exists es, for_each_param (GTraverser o ps) = Some es /\ params_seen es = params_of true (GTraverser o ps).
Proof. eexists. split; [reflexivity|]. cbn. destruct o; apply seen_params. Qed.
Lemma for_each_sub m es : for_each_param m = Some es -> subseq (params_seen es) (params_of true m).
Proof.
  destruct m; try discriminate.
  - intros E. injection E as <-. rewrite (proj1 (seen_params ps)). cbn. destruct model; apply subseq_refl.
  - intros E. injection E as <-. cbn [params_of]. apply fields_sub; auto using seen_app. apply Forall_forall. intros f _. apply deep_below.
Qed.
Lemma strict_exact m id fs : m = GModel id fs -> tidy m -> Forall no_own_traversal (fields_of m) ->
  exists es, for_each_param_strict m = Some es /\ params_seen es = params_of false m.
Proof.
  intros -> T N. eexists. split; [reflexivity|]. cbn [params_of fields_of] in *.
  rewrite (exact_fields (mkT true false false) params_seen seen_app eq_refl loose).
  - clear T. induction fs as [|[b v] fs IH]; cbn [flat_map fst snd]; [reflexivity|]. destruct b; cbn [filter fst snd map] in N.
    + inversion N; subst. rewrite loose_held by assumption. f_equal. now apply IH.
    + cbn [app]. now apply IH.
  - cbn [tidy] in T. apply tidy_fields in T. apply Forall_forall. intros f Hf E. rewrite Forall_forall in T. apply loose_exact; auto.
Qed.
Lemma apply_exact m id fs : m = GModel id fs -> tidy m -> exists es, apply m id = Some es /\ models_seen es = models m /\ params_seen es = [].
Proof.
  intros -> T. eexists. split; [reflexivity|]. split.
  - cbn [models_seen flat_map app models]. f_equal. apply exact_fields; auto using mseen_app.
    cbn [tidy] in T. apply tidy_fields in T. apply Forall_forall. intros f Hf E. rewrite Forall_forall in T. apply models_exact; auto.
  - cbn [params_seen flat_map app].
    assert (B : forall v, below (mkT false true true) params_seen (fun _ => []) v).
    { intros v. induction v using gval_rec'; try (apply below_easy; [reflexivity|cbn; apply sub_nil]).
      - apply below_easy; [reflexivity|]. destruct m; cbn; apply sub_nil.
      - apply below_easy; [reflexivity|]. cbn [walk_item fst sub_models on_models app params_seen flat_map].
        pose proof (fields_sub (mkT false true true) params_seen seen_app eq_refl (fun _ => []) fs0 H) as X.
        cbv beta in X. rewrite nil_fields in X. exact X.
      - apply below_sync; auto using seen_app. intros l0. clear. induction l0; cbn; auto.
      - apply below_slice; auto using seen_app. intros l0. clear. induction l0; cbn; auto.
      - apply below_map; auto using seen_app. intros l0. clear. induction l0; cbn; auto. }
    pose proof (fields_sub (mkT false true true) params_seen seen_app eq_refl (fun _ => []) fs) as X.
    cbv beta in X. rewrite nil_fields in X. apply subseq_nil, X. apply Forall_forall. intros f _. apply B.
Qed.

Lemma zero_fold {G} es : forall (g : nat -> option G) q,
  fold_left (fun g e => match e with EParam p => fun q => if q =? p then None else g q | EModel _ => g end) es g q =
  if existsb (Nat.eqb q) (params_seen es) then None else g q.
Proof.
  induction es as [|[p|i] es IH]; intros g q; cbn [fold_left params_seen flat_map app existsb]; [reflexivity| |].
  - rewrite IH. fold (params_seen es). destruct (q =? p), (existsb (Nat.eqb q) (params_seen es)); reflexivity.
  - rewrite IH. reflexivity.
Qed.
Lemma zero_exact {G} m id fs (g : nat -> option G) : m = GModel id fs -> tidy m ->
  exists g', zero_grad m g = Some g' /\ forall p, (In p (params_of true m) -> g' p = None) /\ (~ In p (params_of true m) -> g' p = g p).
Proof.
  intros E T. destruct (for_each_exact m id fs E T) as (es & E1 & E2). unfold zero_grad. rewrite E1. eexists. split; [reflexivity|].
  intros p. rewrite zero_fold, E2. split; intros H.
  - replace (existsb (Nat.eqb p) (params_of true m)) with true; [reflexivity|]. symmetry. apply existsb_exists. exists p. split; [exact H|apply Nat.eqb_refl].
  - replace (existsb (Nat.eqb p) (params_of true m)) with false; [reflexivity|]. symmetry. apply not_true_is_false. intros X. apply existsb_exists in X.
    destruct X as (q & Hq & Y). apply Nat.eqb_eq in Y. subst. contradiction.
Qed.

(** ** The order of maps does not matter *)
Lemma flat_map_perm {A B} (f : A -> list B) l l' : Permutation l l' -> Permutation (flat_map f l) (flat_map f l').
Proof.
  induction 1 as [|x l l' _ IH|x y l|l l' l'' _ IH1 _ IH2]; cbn; auto.
  - now apply Permutation_app_head.
  - rewrite !app_assoc. apply Permutation_app_tail, Permutation_app_comm.
  - eapply perm_trans; eassumption.
Qed.
Lemma order_held v : forall v', same_but_order v v' -> Permutation (held true v) (held true v').
Proof.
  assert (Pp : forall l l' : list (bool * gval), Forall (fun f => forall v', same_but_order (snd f) v' -> Permutation (held true (snd f)) (held true v')) l ->
    Forall2 (fun f f' => fst f = fst f' /\ same_but_order (snd f) (snd f')) l l' ->
    Permutation (flat_map (fun e => held true (snd e)) l) (flat_map (fun e => held true (snd e)) l')).
  { intros l l' F F2. induction F2 as [|x y l l' [_ Hx] _ IH]; cbn; auto. inversion F; subst. apply Permutation_app; auto. }
  induction v using gval_rec'; intros v' S; inversion S; subst; auto; cbn [held].
  - match goal with F : Forall2 _ _ _ |- _ => rename F into F2 end. clear S. induction F2 as [|x y l l' [Ex Hx] _ IH]; cbn; auto. inversion H; subst. rewrite <- Ex. apply Permutation_app; [destruct (fst x); auto|now apply IH].
  - eapply perm_trans; [apply Pp; eassumption|]. now apply flat_map_perm.
  - match goal with F : Forall2 _ _ _ |- _ => rename F into F2 end. clear S. induction F2 as [|x y l l' Hx _ IH]; cbn; auto. inversion H; subst. apply Permutation_app; auto.
  - eapply perm_trans; [apply Pp; eassumption|]. now apply flat_map_perm.
Qed.
Lemma order_params v v' : same_but_order v v' -> Permutation (params_of true v) (params_of true v').
Proof.
  intros S. pose proof (order_held _ _ S) as H. destruct v; cbn [params_of held] in *; inversion S; subst; auto.
Qed.

(** ** Streams *)
Lemma run_sub b ps s : run (stream_step b) ps s -> exists skipped, Permutation ps (got s ++ skipped ++ todo s) /\ subseq (got s ++ todo s) ps /\
  (cancelled s = false -> ps = got s ++ todo s) /\ (closed s = true -> todo s = []).
Proof.
  induction 1 as [|s s' _ IH St].
  - exists []. cbn. repeat split; auto using subseq_refl. discriminate.
  - destruct IH as (sk & P & U & C & D). destruct St as [t g c|p t g c|p t g|g c]; cbn [todo got cancelled closed] in *.
    + exists sk. repeat split; auto; discriminate.
    + exists sk. rewrite <- !app_assoc. cbn [app]. split; [|split; [exact U|split; [exact C|discriminate]]].
      eapply perm_trans; [exact P|]. apply Permutation_app_head. apply Permutation_sym, Permutation_middle.
    + exists (if b then p :: t ++ sk else p :: sk). split; [|split; [|split; [discriminate|discriminate]]].
      * eapply perm_trans; [exact P|]. apply Permutation_app_head. destruct b; cbn.
        -- rewrite app_nil_r. eapply perm_trans; [apply Permutation_sym, Permutation_middle|]. apply perm_skip, Permutation_app_comm.
        -- apply Permutation_sym, Permutation_middle.
      * assert (X : forall A (a b c : list A), subseq a b -> subseq b c -> subseq a c).
        { clear. intros A a b c H1 H2. revert a H1. induction H2 as [l|x l l' _ IH|x l l' _ IH]; intros a H1.
          - apply subseq_nil in H1. subst. apply sub_nil.
          - apply sub_skip. auto.
          - inversion H1; subst; [apply sub_nil|apply sub_skip; auto|apply sub_take; auto]. }
        eapply X; [|exact U]. apply subseq_app; [apply subseq_refl|]. destruct b; [apply sub_nil|apply sub_skip, subseq_refl].
    + exists sk. repeat split; auto.
Qed.
Lemma stream_prefix ps s : run stream_params_step ps s -> exists rest, ps = got s ++ rest /\ (todo s = rest \/ todo s = []).
Proof.
  induction 1 as [|s s' _ IH St]; [exists ps; auto|]. destruct IH as (rest & -> & D).
  destruct St as [t g c|p t g c|p t g|g c]; cbn [todo got] in *; try (exists rest; auto; fail).
  - destruct D as [<-|D]; [|discriminate]. exists t. rewrite <- app_assoc. auto.
Qed.
(** once cancelled, the goroutine ends by itself, whatever the receiver does *)
Inductive runs (step : stream -> stream -> Prop) : stream -> stream -> Prop :=
| runs_refl s : runs step s s
| runs_step s s' s'' : step s s' -> runs step s' s'' -> runs step s s''.
Lemma cancelled_closes b t : forall g, runs (stream_step b) (mkStream t g true false) (mkStream [] g true true).
Proof.
  induction t as [|p t IH]; intros g.
  - eapply runs_step; [apply s_close|apply runs_refl].
  - eapply runs_step; [apply s_done|]. destruct b; [|apply IH]. eapply runs_step; [apply s_close|apply runs_refl].
Qed.
