(** * Proofs about saving and loading *)
From Coq Require Import List Arith Bool Lia.
From Verif Require Import DumpModel DumpSpec.
Import ListNotations.

Section Streams.
Variable B : Type.
Variable answer : list (wrote B) -> list B -> nat * bool.
Variable size : nat.
Hypothesis contract : io_writer answer.
Hypothesis size_pos : 0 < size.
Notation received := (received B).
Notation flush := (flush B answer).
Notation write_loop := (write_loop B answer size).
Notation bwrite := (bwrite B answer size).
Notation encode_all := (encode_all B answer size).

Lemma received_app t u : received (t ++ u) = received t ++ received u.
Proof. unfold DumpModel.received. now rewrite map_app, concat_app. Qed.
Lemma received_one p n e : received [mkWrote B p n e] = firstn n p.
Proof. unfold DumpModel.received. cbn. apply app_nil_r. Qed.

(** every moment of the trace [t] (beyond the first [m] calls) the stream holds a prefix of [data] *)
Definition good (data : list B) (t : list (wrote B)) : Prop := forall k, prefix (received (firstn k t)) data.
Lemma prefix_refl {A} (l : list A) : prefix l l.
Proof. exists []. now rewrite app_nil_r. Qed.
Lemma prefix_app {A} (a b c : list A) : prefix a b -> prefix a (b ++ c).
Proof. intros [d ->]. exists (d ++ c). now rewrite app_assoc. Qed.
Lemma prefix_trans {A} (a b c : list A) : prefix a b -> prefix b c -> prefix a c.
Proof. intros H [d ->]. now apply prefix_app. Qed.
Lemma good_last data t w : good data t -> prefix (received (t ++ [w])) data -> good data (t ++ [w]).
Proof.
  intros G H k. destruct (Nat.le_gt_cases k (length t)) as [L | L].
  - rewrite firstn_app. replace (k - length t) with 0 by lia. cbn. rewrite app_nil_r. apply G.
  - rewrite firstn_all2; [exact H | rewrite app_length; cbn; lia].
Qed.
Lemma good_more data more t : good data t -> good (data ++ more) t.
Proof. intros G k. apply prefix_app, G. Qed.

(** the state of the writer after [data] has been given to it *)
Definition inv (data : list B) (b : buffered B) : Prop :=
  good data (trace B b) /\ length (buf B b) <= size /\
  (berr B b = false -> data = received (trace B b) ++ buf B b).

Lemma flush_inv data b : inv data b -> inv data (flush b) /\ (berr B (flush b) = false -> buf B (flush b) = []).
Proof.
  intros (G & L & E). unfold DumpModel.flush. destruct (berr B b) eqn:R; [rewrite R; split; [repeat split; auto; congruence | discriminate]|].
  specialize (E eq_refl). destruct (buf B b) as [| x l] eqn:Bb; [split; [split; [exact G | split; [rewrite Bb; cbn; lia | intros _; now rewrite Bb]] | auto]|].
  rewrite <- Bb in *. unfold call. pose proof (contract (trace B b) (buf B b)) as [C1 C2].
  destruct (answer (trace B b) (buf B b)) as [n e]. cbn [fst snd] in *. split.
  - unfold inv. cbn [trace buf berr]. split; [|split].
    + apply good_last; [exact G|]. rewrite received_app, received_one. exists (skipn n (buf B b)).
      rewrite <- app_assoc, firstn_skipn. exact E.
    + destruct (e || (n <? length (buf B b))); cbn [length]; [rewrite skipn_length; lia | lia].
    + intros F. rewrite F. apply orb_false_iff in F. destruct F as [-> F]. specialize (C2 eq_refl).
      rewrite received_app, received_one, app_nil_r, C2, firstn_all. exact E.
  - cbn [berr buf]. intros ->. reflexivity.
Qed.

Lemma write_loop_inv fuel : forall b p data, inv data b -> (berr B b = false -> (buf B b = [] -> 1 <= fuel) /\ (buf B b <> [] -> 2 <= fuel)) ->
  exists b' p', write_loop fuel b p = Some (b', p') /\ good (data ++ p) (trace B b') /\ length (buf B b') <= size /\
    (berr B b' = false -> data ++ p = received (trace B b') ++ buf B b' ++ p' /\ length (buf B b') + length p' <= size).
Proof.
  induction fuel as [| fuel IH]; intros b p data I F; cbn [DumpModel.write_loop].
  - destruct (berr B b) eqn:R; cbn [orb].
    + exists b, p. destruct I as (G & L & E). repeat split; auto using good_more; congruence.
    + specialize (F eq_refl). destruct F as [F1 F2]. destruct (buf B b) eqn:Bb; [specialize (F1 eq_refl); lia | specialize (F2 ltac:(discriminate)); lia].
  - destruct (berr B b) eqn:R; cbn [orb].
    + exists b, p. destruct I as (G & L & E). repeat split; auto using good_more; congruence.
    + destruct (Nat.leb_spec (length p) (size - length (buf B b))) as [Q | Q].
      * exists b, p. destruct I as (G & L & E). split; [reflexivity|]. split; [now apply good_more|]. split; [exact L|].
        intros _. split; [rewrite (E R) at 1; now rewrite app_assoc | lia].
      * specialize (F eq_refl). destruct (buf B b) as [| x l] eqn:Bb.
        -- destruct I as (G & L & E). rewrite Bb in *. specialize (E R). rewrite app_nil_r in E.
           unfold call. pose proof (contract (trace B b) p) as [C1 C2]. destruct (answer (trace B b) p) as [n e]. cbn [fst snd] in *.
           destruct e.
           ++ destruct fuel; cbn [DumpModel.write_loop berr orb]; (eexists; eexists; split; [reflexivity|]; cbn [trace buf berr]; split;
                [apply good_last; [now apply good_more|]; rewrite received_app, received_one; exists (skipn n p); rewrite <- app_assoc, firstn_skipn; now rewrite <- E
                | split; [cbn; lia | discriminate]]).
           ++ specialize (C2 eq_refl). subst n. rewrite skipn_all.
              assert (W : forall f, write_loop f (mkBuf B [] false (trace B b ++ [mkWrote B p (length p) false])) [] = Some (mkBuf B [] false (trace B b ++ [mkWrote B p (length p) false]), [])) by (intros [| f]; reflexivity).
              rewrite W. eexists; eexists; split; [reflexivity|]. cbn [trace buf berr]. split; [|split; [cbn; lia|]].
              ** apply good_last; [now apply good_more|]. rewrite received_app, received_one, firstn_all. rewrite <- E. apply prefix_refl.
              ** intros _. rewrite received_app, received_one, firstn_all, <- E. cbn. rewrite app_nil_r. split; [reflexivity | lia].
        -- rewrite <- Bb in *. set (m := size - length (buf B b)) in *.
           assert (I' : inv (data ++ firstn m p) (mkBuf B (buf B b ++ firstn m p) false (trace B b))).
           { destruct I as (G & L & E). unfold inv. cbn [trace buf berr]. split; [now apply good_more|]. split.
             - rewrite app_length, firstn_length. lia.
             - intros _. rewrite (E R) at 1. now rewrite app_assoc. }
           destruct (flush_inv _ _ I') as [J K].
           destruct F as [_ F]. assert (2 <= S fuel) by (apply F; rewrite Bb; discriminate).
           destruct (IH (flush (mkBuf B (buf B b ++ firstn m p) false (trace B b))) (skipn m p) _ J) as (b' & p' & H1 & H2 & H3 & H4).
           { intros H'. specialize (K H'). split; [lia|]. congruence. }
           exists b', p'. rewrite <- app_assoc, firstn_skipn in *. auto.
Qed.

Lemma bwrite_inv b p data : inv data b -> exists b', bwrite b p = Some b' /\ inv (data ++ p) b'.
Proof.
  intros I. unfold DumpModel.bwrite. destruct (write_loop_inv (length p + 2) b p data I) as (b' & p' & -> & G & L & E); [intros; split; lia|].
  eexists. split; [reflexivity|]. destruct (berr B b') eqn:R.
  - split; [exact G | split; [exact L | congruence]].
  - destruct (E eq_refl) as [E1 E2]. unfold inv. cbn [trace buf berr]. split; [exact G|]. split; [rewrite app_length; lia | intros _; exact E1].
Qed.

Lemma encode_all_inv ps : forall b data, inv data b -> berr B b = false -> exists b', encode_all b ps = Some b' /\
  good (data ++ concat ps) (trace B b') /\ (berr B b' = false -> inv (data ++ concat ps) b').
Proof.
  induction ps as [| p ps IH]; intros b data I R; cbn [DumpModel.encode_all concat].
  - exists b. rewrite app_nil_r. split; [reflexivity|]. split; [apply I | auto].
  - destruct (bwrite_inv b p data I) as (b' & -> & I'). destruct (berr B b') eqn:R'.
    + exists b'. split; [reflexivity|]. rewrite app_assoc. split; [apply good_more, I' | congruence].
    + destruct (IH b' _ I' R') as (b'' & -> & G & J). exists b''. rewrite <- app_assoc in *. auto.
Qed.

Lemma dump_inv ok ps : exists r t, dump B answer size ok ps [] = Some (r, t) /\ good (concat ps) t /\
  (r = true -> ok = true /\ received t = concat ps).
Proof.
  unfold dump. assert (I : inv [] (mkBuf B [] false [])).
  { split; [intros k; cbn; rewrite firstn_nil; apply prefix_refl | split; [cbn; lia | auto]]. }
  destruct (encode_all_inv ps _ _ I eq_refl) as (b & -> & G & J). rewrite app_nil_l in *.
  destruct (berr B b) eqn:R; cbn [orb].
  - eexists; eexists; split; [reflexivity|]. split; [exact G | discriminate].
  - destruct ok; cbn [negb]; [|eexists; eexists; split; [reflexivity|]; split; [exact G | discriminate]].
    destruct (flush_inv _ _ (J eq_refl)) as [(G' & _ & E) K]. eexists; eexists; split; [reflexivity|]. split; [exact G'|].
    intros H. apply negb_true_iff in H. split; [reflexivity|]. specialize (K H). rewrite (E H), K, app_nil_r. reflexivity.
Qed.

(** a stream whose calls all succeed: Dump succeeds *)
Hypothesis willing : forall t p, snd (answer t p) = false.
Lemma flush_ok b : berr B b = false -> berr B (flush b) = false.
Proof.
  intros R. unfold DumpModel.flush. rewrite R. destruct (buf B b) eqn:Bb; [exact R|]. rewrite <- Bb. unfold call.
  pose proof (willing (trace B b) (buf B b)) as W. pose proof (contract (trace B b) (buf B b)) as [_ C].
  destruct (answer (trace B b) (buf B b)) as [n e]. cbn [fst snd berr] in *. rewrite W. cbn. rewrite C by exact W. apply Nat.ltb_irrefl.
Qed.
Lemma write_loop_ok fuel : forall b p b' p', berr B b = false -> write_loop fuel b p = Some (b', p') -> berr B b' = false.
Proof.
  induction fuel as [| fuel IH]; intros b p b' p' R; cbn [DumpModel.write_loop]; rewrite R; cbn [orb];
    destruct (_ <=? _); try (intros [= <- <-]; exact R); try discriminate.
  destruct (buf B b) as [| x l] eqn:Bb.
  - unfold call. pose proof (willing (trace B b) p) as W. destruct (answer (trace B b) p) as [n e]. cbn [snd] in W. apply IH. exact W.
  - rewrite <- Bb. apply IH. apply flush_ok. reflexivity.
Qed.
Lemma encode_all_ok ps : forall b b', berr B b = false -> encode_all b ps = Some b' -> berr B b' = false.
Proof.
  induction ps as [| p ps IH]; intros b b' R; cbn [DumpModel.encode_all]; [intros [= <-]; exact R|].
  unfold DumpModel.bwrite. destruct (write_loop _ b p) as [[b1 p1]|] eqn:E; [|discriminate].
  apply write_loop_ok in E; [|exact R]. rewrite E. cbn [berr]. apply IH. reflexivity.
Qed.
Lemma dump_ok ps : exists t, dump B answer size true ps [] = Some (true, t).
Proof.
  destruct (dump_inv true ps) as (r & t & D & _). exists t. rewrite D. revert D. unfold dump.
  destruct (encode_all _ ps) as [b|] eqn:E; [|discriminate]. apply encode_all_ok in E; [|reflexivity]. rewrite E. cbn [orb negb].
  rewrite (flush_ok b E). intros [= <- <-]. reflexivity.
Qed.
End Streams.

(** ** Loading *)
Section Load.
Variables (B V : Type) (c : codec B V).
Hypothesis delim : self_delimiting c.
Lemma load_loop_done v : encodable c v = true -> forall reads acc tail, acc ++ concat reads = encoding c v ++ tail ->
  exists reads', load_loop B V (decoder c) acc reads = (Some v, reads').
Proof.
  intros Ev. destruct (delim v Ev) as [D1 D2]. induction reads as [| r reads IH]; intros acc tail E; cbn [load_loop].
  - cbn in E. rewrite app_nil_r in E. subst acc. rewrite D1. eauto.
  - assert (H : (exists t, acc = encoding c v ++ t) \/ (exists b, encoding c v = acc ++ b /\ b <> [])).
    { clear -E. revert E. generalize (encoding c v) as e. generalize (concat (r :: reads)) as x. intros x e. revert e.
      induction acc as [| y acc IH]; intros e E.
      - destruct e as [| z e]; [left; exists []; reflexivity | right; exists (z :: e); split; [reflexivity | discriminate]].
      - destruct e as [| z e]; [left; now exists (y :: acc)|]. cbn in E. injection E as -> E. destruct (IH e E) as [[t ->] | (b & -> & Nb)]; [left; now exists t | right; exists b; auto]. }
    destruct H as [[t ->] | (b & Eb & Nb)]; [rewrite D1; eauto|]. rewrite (D2 _ _ Eb Nb). apply (IH (acc ++ r) tail).
    rewrite <- app_assoc. exact E.
Qed.
Lemma load_loop_short v : encodable c v = true -> forall reads acc b, b <> [] -> encoding c v = (acc ++ concat reads) ++ b ->
  load_loop B V (decoder c) acc reads = (None, []).
Proof.
  intros Ev. destruct (delim v Ev) as [D1 D2]. induction reads as [| r reads IH]; intros acc b Nb E; cbn [load_loop].
  - cbn in E. rewrite app_nil_r in E. now rewrite (D2 _ _ E Nb).
  - rewrite (D2 acc (concat (r :: reads) ++ b)); [|now rewrite app_assoc | destruct (concat (r :: reads)); [exact Nb | discriminate]].
    apply (IH (acc ++ r) b Nb). rewrite E. cbn [concat]. now rewrite <- !app_assoc.
Qed.
End Load.
