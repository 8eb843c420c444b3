(** * C58: generators used by several goroutines *)
From Coq Require Import List ZArith Reals Bool Arith Lia.
From Verif Require Import RandModel RandSpec RandFloatModel LockModel LockSpec LockProofs.
Import ListNotations.
Open Scope Z_scope.

(** Whatever the goroutines do with a LockedRand and whatever the schedule, the calls in the order in which they
    return are a sequence of calls made one after the other, with these answers; every goroutine sees its own calls
    in its own order; and when no call is under way the generator is where this sequence leaves it. *)
Theorem C58_linear : forall r0 gs tr s, exec (start r0 gs) tr s ->
  (exists r, one_by_one r0 tr r /\ ((forall t h, nth_error (threads s) t = Some h -> exists g, h = Outside g) -> gen s = r)) /\
  (forall t g, nth_error gs t = Some g -> exists h, nth_error (threads s) t = Some h /\ follows g (mine t tr) (remaining h)).
Proof.
  intros r0 gs tr s H. split; [|apply (linear r0 gs tr s H)]. destruct (exec_inv _ _ _ _ H) as (S & _).
  destruct S as [(_ & _ & B & _)|[(_ & _ & t & c & q & k & r1 & n & N & _ & B & _)|(_ & _ & B & _)]]; [eauto| |eauto].
  exists r1. split; [exact B|]. intros O. destruct (O _ _ N) as (g & E). discriminate.
Qed.
Print Assumptions C58_linear.

(** No deadlock as long as no call panics. *)
Theorem C58_progress_partial : forall r0 gs tr s, exec (start r0 gs) tr s -> (forall e, In e tr -> got e <> Panicked) ->
  (forall t h, nth_error (threads s) t = Some h -> exists a, h = Outside (Finished a)) \/ exists l s', step s l s'.
Proof.
  intros r0 gs tr s H P. apply (progress r0 gs tr s H). intros E. apply Exists_exists in E. destruct E as (e & I & X). exact (P e I X).
Qed.
Print Assumptions C58_progress_partial.

(** Goroutines that draw 64-bit numbers share out the sequence of the generator: none is lost, none is given twice. *)
Theorem C58_shared_out : forall r0 gs tr s, exec (start r0 gs) tr s -> (forall e, In e tr -> what e = CUint64) ->
  map got tr = map (fun w => Ints [w]) (words (length tr) (src r0)).
Proof.
  intros r0 gs tr s H F. destruct (linear _ _ _ _ H) as ((r & B) & _). apply (obo_words tr r0 r); [now apply Forall_forall|exact B].
Qed.
Print Assumptions C58_shared_out.

(** The top-level functions, one call by each goroutine: together they use up a prefix of the sequence of the default
    source, each number by exactly one of them, and a call that has returned gives what the method gives on the words it got. *)
Theorem C58_global : forall r0 cs tr s, Forall word_call cs -> exec (start r0 (map global cs)) tr s ->
  map got tr = map (fun w => Ints [w]) (words (length tr) (src r0)) /\
  forall t c a, nth_error cs t = Some c -> nth_error (threads s) t = Some (Outside (Finished a)) ->
    on_words c (flat_map (fun e => ints (got e)) (mine t tr)) a.
Proof.
  intros r0 cs tr s Hc H. pose proof (global_events _ _ _ _ Hc H) as F. rewrite Forall_forall in F.
  pose proof (C58_shared_out _ _ _ _ H F) as E. split; [exact E|].
  intros t c a Ec Ea. destruct (linear _ _ _ _ H) as (_ & L). destruct (L t (global c) (map_nth_error _ _ _ Ec)) as (h & Eh & Hf).
  rewrite Ea in Eh. injection Eh as <-. cbn [remaining] in Hf.
  assert (W : word_call c) by (rewrite Forall_forall in Hc; apply Hc; now apply nth_error_In in Ec).
  rewrite (global_word c W) in Hf. apply outside_result in Hf.
  - destruct Hf as (o & Y & ->). exact (p_call_on_words _ _ _ W Y).
  - apply Forall_forall. intros e He. apply filter_In in He. destruct He as (He & _).
    assert (I : In (got e) (map got tr)) by now apply in_map. rewrite E in I. apply in_map_iff in I. destruct I as (w & <- & _). now exists w.
Qed.
Print Assumptions C58_global.

(** A panic in a top-level function happens outside the mutex: these functions never block each other. *)
Theorem C58_global_progress : forall r0 cs tr s, Forall word_call cs -> exec (start r0 (map global cs)) tr s ->
  (forall t h, nth_error (threads s) t = Some h -> exists a, h = Outside (Finished a)) \/ exists l s', step s l s'.
Proof.
  intros r0 cs tr s Hc H. apply (C58_progress_partial _ _ _ _ H). intros e He X.
  destruct (C58_global _ _ _ _ Hc H) as (E & _). assert (I : In (got e) (map got tr)) by now apply in_map.
  rewrite E, X in I. apply in_map_iff in I. destruct I as (w & D & _). discriminate.
Qed.
Print Assumptions C58_global_progress.

(** A panic in a method of LockedRand leaves its mutex locked: afterwards no goroutine makes another step. *)
Theorem C58_panic_blocks : forall r0 gs tr s e, exec (start r0 gs) tr s -> In e tr -> got e = Panicked ->
  forall l s', ~ step s l s'.
Proof. intros r0 gs tr s e H I X. apply (stuck_after_panic r0 gs tr s H). apply Exists_exists. now exists e. Qed.
Print Assumptions C58_panic_blocks.

(** so after Intn of a number that is not positive, even if the panic is recovered, a call of another goroutine
    blocks for ever *)
Theorem C58_progress_refuted : forall r0 n, n <= 0 -> exists s,
  exec (start r0 [Call (CIntn n) Finished; Call CUint64 Finished]) [mkEvent 0 (CIntn n) Panicked] s /\
  nth_error (threads s) 1 = Some (Outside (Call CUint64 Finished)) /\ forall l s', ~ step s l s'.
Proof.
  intros r0 n Hn.
  assert (E : body (CIntn n) = Fail).
  { cbn [body p_call]. unfold p_int63n. destruct (Z.leb_spec n 0) as [_|]; [|lia]. rewrite inside_eq, then_eq. reflexivity. }
  exists (mkSystem r0 true [Outside (Finished Panicked); Outside (Call CUint64 Finished)]).
  assert (H : exec (start r0 [Call (CIntn n) Finished; Call CUint64 Finished]) [mkEvent 0 (CIntn n) Panicked]
                (mkSystem r0 true [Outside (Finished Panicked); Outside (Call CUint64 Finished)])).
  { apply (e_event _ [] (mkSystem r0 true [Inside (CIntn n) Fail Finished; Outside (Call CUint64 Finished)])).
    - apply (e_quiet _ [] (start r0 [Call (CIntn n) Finished; Call CUint64 Finished])); [constructor|].
      rewrite <- E. apply (s_lock 0 (CIntn n) Finished r0). reflexivity.
    - apply (s_panic 0 (CIntn n) Finished r0 true [Inside (CIntn n) Fail Finished; Outside (Call CUint64 Finished)]). reflexivity. }
  split; [exact H|]. split; [reflexivity|]. exact (C58_panic_blocks _ _ _ _ _ H (or_introl eq_refl) eq_refl).
Qed.
Print Assumptions C58_progress_refuted.

(** An execution: goroutine 1 draws first, then goroutine 0. *)
Example C58_case : forall r0, let (v, r1) := rand_uint64 r0 in let (w, r2) := rand_uint64 r1 in exists s,
  exec (start r0 [Call CUint64 Finished; Call CUint64 Finished]) [mkEvent 1 CUint64 (Ints [v]); mkEvent 0 CUint64 (Ints [w])] s /\
  gen s = r2 /\ threads s = [Outside (Finished (Ints [w])); Outside (Finished (Ints [v]))].
Proof.
  intros r0. destruct (rand_uint64 r0) as [v r1] eqn:E1. destruct (rand_uint64 r1) as [w r2] eqn:E2.
  assert (B : body CUint64 = Get (fun r => let '(v, r') := rand_uint64 r in Put r' (inside (one v)))) by (cbn [body p_call]; apply inside_eq).
  assert (A : forall x, inside (one x) = Answer (Ints [x])) by (intros x; apply inside_eq).
  set (C := Call CUint64 Finished). set (G := Get (fun r => let '(v, r') := rand_uint64 r in Put r' (inside (one v)))) in B.
  exists (mkSystem r2 false [Outside (Finished (Ints [w])); Outside (Finished (Ints [v]))]). split; [|split; reflexivity].
  apply (e_event _ [mkEvent 1 CUint64 (Ints [v])] (mkSystem r2 true [Inside CUint64 (Answer (Ints [w])) Finished; Outside (Finished (Ints [v]))]));
    [|apply (s_unlock 0 CUint64 (Ints [w]) Finished r2 true [Inside CUint64 (Answer (Ints [w])) Finished; Outside (Finished (Ints [v]))]); reflexivity].
  rewrite <- A.
  apply (e_quiet _ _ (mkSystem r1 true [Inside CUint64 (Put r2 (inside (one w))) Finished; Outside (Finished (Ints [v]))]));
    [|apply (s_put 0 CUint64 r2 (inside (one w)) Finished r1 true [Inside CUint64 (Put r2 (inside (one w))) Finished; Outside (Finished (Ints [v]))]); reflexivity].
  apply (e_quiet _ _ (mkSystem r1 true [Inside CUint64 G Finished; Outside (Finished (Ints [v]))])).
  2:{ pose proof (s_get 0 CUint64 (fun r => let '(v, r') := rand_uint64 r in Put r' (inside (one v))) Finished r1 true
        [Inside CUint64 G Finished; Outside (Finished (Ints [v]))] eq_refl) as S. cbv beta in S. rewrite E2 in S. exact S. }
  apply (e_quiet _ _ (mkSystem r1 false [Outside C; Outside (Finished (Ints [v]))])).
  2:{ rewrite <- B. apply (s_lock 0 CUint64 Finished r1). reflexivity. }
  apply (e_event _ [] (mkSystem r1 true [Outside C; Inside CUint64 (Answer (Ints [v])) Finished]));
    [|apply (s_unlock 1 CUint64 (Ints [v]) Finished r1 true [Outside C; Inside CUint64 (Answer (Ints [v])) Finished]); reflexivity].
  rewrite <- A.
  apply (e_quiet _ _ (mkSystem r0 true [Outside C; Inside CUint64 (Put r1 (inside (one v))) Finished]));
    [|apply (s_put 1 CUint64 r1 (inside (one v)) Finished r0 true [Outside C; Inside CUint64 (Put r1 (inside (one v))) Finished]); reflexivity].
  apply (e_quiet _ _ (mkSystem r0 true [Outside C; Inside CUint64 G Finished])).
  2:{ pose proof (s_get 1 CUint64 (fun r => let '(v, r') := rand_uint64 r in Put r' (inside (one v))) Finished r0 true
        [Outside C; Inside CUint64 G Finished] eq_refl) as S. cbv beta in S. rewrite E1 in S. exact S. }
  apply (e_quiet _ _ (mkSystem r0 false [Outside C; Outside C])); [constructor|].
  rewrite <- B. apply (s_lock 1 CUint64 Finished r0). reflexivity.
Qed.

(** the calls of C58_global include bounded and floating point numbers and permutations *)
Example C58_global_case : Forall word_call [CIntn 10; CFloat64; CPerm 5; CShuffle 3; CUint64n 0].
Proof. repeat constructor. Qed.
