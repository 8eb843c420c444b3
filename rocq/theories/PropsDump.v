(** * C60: saved models load as they were saved *)
From Coq Require Import List Arith Bool Lia.
From Verif Require Import DumpModel DumpSpec DumpProofs.
Import ListNotations.

(** Dump on every stream that keeps io.Writer's contract: it returns; whatever fails, after each call of Write the
    stream has received a prefix of the encoding; and if Dump returns nil, the whole encoding and nothing else. *)
Theorem C60_dump B V (c : codec B V) answer size (v : V) :
  io_writer answer -> 0 < size ->
  exists nil t, dump B answer size (encodable c v) (messages c v) [] = Some (nil, t) /\
    (forall k, prefix (received B (firstn k t)) (encoding c v)) /\
    (nil = true -> encodable c v = true /\ received B t = encoding c v).
Proof. intros C S. exact (dump_inv B answer size C S (encodable c v) (messages c v)). Qed.
Print Assumptions C60_dump.

(** If no Write fails and the value can be encoded, Dump returns nil. *)
Theorem C60_dump_succeeds B V (c : codec B V) answer size (v : V) :
  io_writer answer -> 0 < size -> (forall t p, snd (answer t p) = false) -> encodable c v = true ->
  exists t, dump B answer size (encodable c v) (messages c v) [] = Some (true, t).
Proof. intros C S W ->. exact (dump_ok B answer size C S W (messages c v)). Qed.
Print Assumptions C60_dump_succeeds.

(** Load from a stream that begins with the encoding of a value returns that value, however the Reads divide the stream. *)
Theorem C60_load B V (c : codec B V) (v : V) tail reads :
  self_delimiting c -> encodable c v = true -> concat reads = encoding c v ++ tail ->
  fst (load B V (decoder c) reads) = Some v.
Proof. intros D E R. unfold load. destruct (load_loop_done B V c D v E reads [] tail R) as [r ->]. reflexivity. Qed.
Print Assumptions C60_load.

(** Load from a stream that ends, or fails, within the encoding of a value returns an error. *)
Theorem C60_truncated B V (c : codec B V) (v : V) missing reads :
  self_delimiting c -> encodable c v = true -> missing <> [] -> encoding c v = concat reads ++ missing ->
  fst (load B V (decoder c) reads) = None.
Proof. intros D E M R. unfold load. rewrite (load_loop_short B V c D v E reads [] missing M R). reflexivity. Qed.
Print Assumptions C60_truncated.

(** A model saved to a file by a call that returned nil is what LoadFromFile gives, if Close did not fail.  Without that
    hypothesis the claim is false: C60_close_refuted. *)
Theorem C60_round_trip_partial B V (c : codec B V) (e : os B) size old (v : V) reads :
  self_delimiting c -> io_writer (answers B e) -> 0 < size -> (forall l, concat (reads l) = l) ->
  close_ok B e = true ->
  forall file, dump_to_file B size e old (encodable c v) (messages c v) = Some (true, file) ->
  load_from_file B V (decoder c) file reads = Some v.
Proof.
  intros D C S R Cl file. unfold dump_to_file. destruct (create_ok B e); cbn [negb]; [|discriminate].
  destruct (C60_dump B V c (answers B e) size v C S) as (r & t & -> & _ & N). rewrite Cl. intros [= -> <-].
  destruct (N eq_refl) as [E T]. cbn [load_from_file]. rewrite T. apply (C60_load B V c v []); auto.
  rewrite R. now rewrite app_nil_r.
Qed.
Print Assumptions C60_round_trip_partial.

(** Killed at any moment, or failed, DumpToFile leaves a file that LoadFromFile rejects or loads as the value being saved,
    never as another one; or the earlier file, if it could not be opened. *)
Theorem C60_interrupted B V (c : codec B V) (e : os B) size old (v : V) reads k :
  self_delimiting c -> io_writer (answers B e) -> 0 < size -> (forall l, concat (reads l) = l) -> encodable c v = true ->
  exists file, killed_after B size e old (encodable c v) (messages c v) k = Some file /\
    if create_ok B e then load_from_file B V (decoder c) file reads = Some v \/ load_from_file B V (decoder c) file reads = None
    else file = old.
Proof.
  intros D C S R E. unfold killed_after. destruct (create_ok B e); cbn [negb]; [|eauto].
  destruct (C60_dump B V c (answers B e) size v C S) as (r & t & -> & P & _). eexists; split; [reflexivity|]. cbn [load_from_file].
  destruct (P k) as [m M]. destruct m as [| b m].
  - left. apply (C60_load B V c v []); auto. rewrite R, M, <- !app_nil_end. reflexivity.
  - right. apply (C60_truncated B V c v (b :: m)); auto; [discriminate|]. now rewrite R.
Qed.
Print Assumptions C60_interrupted.

(** ** What does not hold *)
(** The error of Close is lost: DumpToFile returns nil although the operating system reported that the data are not
    saved, and the file then holds as little as the operating system kept. *)
Theorem C60_close_refuted B V (c : codec B V) (v : V) size old (keep : list B -> list B) :
  0 < size -> encodable c v = true ->
  exists e, io_writer (answers B e) /\ close_ok B e = false /\
    dump_to_file B size e old (encodable c v) (messages c v) = Some (true, Some (keep (encoding c v))).
Proof.
  intros S E. exists (mkOs B true (fun _ p => (length p, false)) false keep). cbn [answers close_ok].
  assert (C : io_writer (fun (_ : list (wrote B)) (p : list B) => (length p, false))) by (intros t p; cbn; auto).
  split; [exact C | split; [reflexivity|]]. unfold dump_to_file. cbn [create_ok negb answers close_ok kept].
  destruct (C60_dump_succeeds B V c _ size v C S (fun _ _ => eq_refl) E) as [t H]. rewrite H.
  destruct (C60_dump B V c _ size v C S) as (r & t' & H' & _ & N). rewrite H in H'. injection H' as <- <-.
  destruct (N eq_refl) as [_ ->]. reflexivity.
Qed.
Print Assumptions C60_close_refuted.

(** The earlier file is lost: once os.Create has succeeded, whatever the file held, a failing first Write (a full disk) makes
    DumpToFile return an error and leaves an empty file; so does a kill before the first Write. *)
Theorem C60_replaced_refuted B V (c : codec B V) (v : V) size (old : list B) :
  0 < size -> encodable c v = true -> encoding c v <> [] ->
  exists e, io_writer (answers B e) /\ close_ok B e = true /\
    dump_to_file B size e (Some old) (encodable c v) (messages c v) = Some (false, Some []) /\
    killed_after B size e (Some old) (encodable c v) (messages c v) 0 = Some (Some []).
Proof.
  intros S E N. exists (mkOs B true (fun _ p => (0, true)) true (fun l => l)). cbn [answers close_ok].
  assert (C : io_writer (fun (_ : list (wrote B)) (p : list B) => (0, true))) by (intros t p; cbn; split; [lia | discriminate]).
  split; [exact C | split; [reflexivity|]]. unfold dump_to_file, killed_after. cbn [create_ok negb answers close_ok kept].
  assert (Z : forall ws, Forall (fun w => taken B w = 0) ws -> received B ws = []).
  { induction 1 as [| w ws H _ IH]; [reflexivity|]. unfold received in *. cbn. now rewrite H, IH. }
  assert (F : forall b, Forall (fun w => taken B w = 0) (trace B b) -> Forall (fun w => taken B w = 0) (trace B (flush B (fun _ _ => (0, true)) b))).
  { intros b H. unfold flush. destruct (berr B b); [exact H|]. destruct (buf B b) eqn:Bb; [exact H|]. cbn. apply Forall_app. auto. }
  assert (L : forall fuel b p b' p', Forall (fun w => taken B w = 0) (trace B b) -> write_loop B (fun _ _ => (0, true)) size fuel b p = Some (b', p') -> Forall (fun w => taken B w = 0) (trace B b')).
  { induction fuel as [| fuel IH]; intros b p b' p' H; cbn [write_loop]; destruct (_ || _); try (intros [= <- <-]; exact H); try discriminate.
    destruct (buf B b) eqn:Bb; [|apply IH, F; exact H]. cbn. apply IH. cbn. apply Forall_app. auto. }
  assert (M : forall ps b b', Forall (fun w => taken B w = 0) (trace B b) -> encode_all B (fun _ _ => (0, true)) size b ps = Some b' -> Forall (fun w => taken B w = 0) (trace B b')).
  { induction ps as [| p ps IH]; intros b b' H; cbn [encode_all]; [intros [= <-]; exact H|]. unfold bwrite.
    destruct (write_loop _ _ _ _ b p) as [[b1 p1]|] eqn:W; [|discriminate]. apply L in W; [|exact H].
    destruct (berr B b1) eqn:R; [rewrite R; intros [= <-]; exact W|]. cbn [berr]. apply IH. exact W. }
  assert (T : forall r t, dump B (fun _ _ => (0, true)) size (encodable c v) (messages c v) [] = Some (r, t) -> received B t = []).
  { intros r t. unfold dump. destruct (encode_all _ _ _ _ _) as [b|] eqn:Ea; [|discriminate]. apply M in Ea; [|constructor].
    destruct (_ || _); intros [= <- <-]; apply Z; auto. }
  destruct (C60_dump B V c _ size v C S) as (r & t & H & _ & Nt). rewrite H.
  specialize (T _ _ H). rewrite T. split; [|reflexivity]. destruct r; [|reflexivity]. destruct (Nt eq_refl) as [_ Q]. congruence.
Qed.
Print Assumptions C60_replaced_refuted.

(** Two values dumped one after the other to a stream cannot be loaded one after the other from it: if one Read gives both
    (as a file or a bytes.Buffer does for less than 4096 bytes), the first Load takes both and the second one fails. *)
Theorem C60_sequence_refuted B V (c : codec B V) (v w : V) :
  self_delimiting c -> encodable c v = true -> encodable c w = true -> encoding c v <> [] ->
  exists left, load B V (decoder c) [encoding c v ++ encoding c w] = (Some v, left) /\ fst (load B V (decoder c) left) = None.
Proof.
  intros D E F N. exists []. destruct (D v E) as [D1 D2]. unfold load. cbn. rewrite (D2 [] (encoding c v) eq_refl N), D1. auto.
Qed.
Print Assumptions C60_sequence_refuted.

(** ** A codec that meets the hypotheses: lists of numbers, a message for the length and one for the elements *)
Fixpoint take (n : nat) (l acc : list nat) : progress (list nat) :=
  match n, l with O, _ => Done (rev acc) | _, [] => More | S n, x :: l => take n l (x :: acc) end.
Definition lists : codec nat (list nat) :=
  mkCodec nat (list nat) (fun v => [[length v]; v]) (fun _ => true)
    (fun l => match l with [] => More | n :: l => take n l [] end).
Lemma take_done v : forall rest acc, take (length v) (v ++ rest) acc = Done (rev acc ++ v).
Proof. induction v as [| x v IH]; intros rest acc; cbn; [now rewrite app_nil_r|]. rewrite IH. cbn. now rewrite <- app_assoc. Qed.
Lemma take_more v : forall a b acc, v = a ++ b -> b <> [] -> take (length v) a acc = More.
Proof.
  induction v as [| x v IH]; intros [| y a] b acc E N; cbn in *; try reflexivity; try (subst; congruence); try discriminate.
  injection E as -> E. now apply (IH a b).
Qed.
Example C60_codec : self_delimiting lists.
Proof.
  intros v _. unfold encoding. cbn. rewrite app_nil_r. split.
  - intros rest. apply take_done.
  - intros [| n a] b E N; [reflexivity|]. cbn in E. injection E as <- E. now apply (take_more v a b).
Qed.
(** a disk with room for 3 bytes; a buffer of 2 bytes *)
Definition full_disk (room : nat) (t : list (wrote nat)) (p : list nat) : nat * bool :=
  let left := room - length (received nat t) in (Nat.min left (length p), left <? length p).
Lemma full_disk_writer room : io_writer (full_disk room).
Proof.
  intros t p. unfold full_disk. cbn [fst snd]. split; [lia|]. intros H. apply Nat.ltb_ge in H. lia.
Qed.
Example C60_full_disk : exists t, dump nat (full_disk 3) 2 true (messages lists [7; 8; 9; 10]) [] = Some (false, t) /\
  received nat t = [4; 7; 8] /\ length t = 2.
Proof. eexists. split; [vm_compute; reflexivity | split; reflexivity]. Qed.
Example C60_enough : exists t, dump nat (full_disk 5) 2 true (messages lists [7; 8; 9; 10]) [] = Some (true, t) /\
  received nat t = [4; 7; 8; 9; 10] /\ length t = 2.
Proof. eexists. split; [vm_compute; reflexivity | split; reflexivity]. Qed.
Example C60_case : dump_to_file nat 2 (mkOs nat true (full_disk 5) true (fun l => l)) (Some [1; 2]) true (messages lists [7; 8; 9; 10])
    = Some (true, Some [4; 7; 8; 9; 10]) /\
  load_from_file nat (list nat) (decoder lists) (Some [4; 7; 8; 9; 10]) (map (fun x => [x])) = Some [7; 8; 9; 10] /\
  killed_after nat 2 (mkOs nat true (full_disk 5) true (fun l => l)) (Some [1; 2]) true (messages lists [7; 8; 9; 10]) 1 = Some (Some [4; 7]).
Proof. vm_compute. auto. Qed.
