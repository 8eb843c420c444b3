(** * Dense matrices: structure

    Model of the methods of [Dense[T]] that only move elements
    (/repo/mat/dense.go, dense_new.go, matrix.go).  The element type is
    arbitrary, so the model covers float32 and float64 bit for bit.  A matrix
    is its two dimensions and its row-major data; sharing of the slices between
    matrices is the subject of the heap model (HeapModel.v), not of this one.
    Dimensions are natural numbers (Go int, without overflow); indices and
    sizes given by the caller are integers.  [None] is a panic. *)
From Coq Require Import List ZArith Bool Arith.
Import ListNotations.

Record dense (T : Type) := mkDense { rows : nat; cols : nat; data : list T }.
Arguments mkDense {T}. Arguments rows {T}. Arguments cols {T}. Arguments data {T}.

(** ** Go slices *)
(** [l[a:b]] *)
Definition slice {T} (l : list T) (a b : nat) : list T := firstn (b - a) (skipn a l).
(** [copy(l[a:a+len(src)], src)] *)
Definition blit {T} (l : list T) (a : nat) (src : list T) : list T :=
  firstn a l ++ src ++ skipn (a + length src) l.
(** [l[i] = v] *)
Fixpoint put {T} (l : list T) (i : nat) (v : T) : list T :=
  match l, i with
  | [], _ => []
  | _ :: l, O => v :: l
  | x :: l, S i => x :: put l i v
  end.

Section Structure.
Context {T : Type}.
Variable zero one : T.
Notation dense := (dense T).

(** malloc (dense.go:41-43), NewDense(WithShape(r, c)) (dense_new.go:93-105) *)
Definition zeros (r c : nat) : dense := mkDense r c (repeat zero (r * c)).
(** ZerosLike, OnesLike (dense.go:78-92) *)
Definition zeros_like (m : dense) : dense := zeros (rows m) (cols m).
Definition ones_like (m : dense) : dense := mkDense (rows m) (cols m) (repeat one (length (data m))).

(** newDenseFromSlice with checkShape and adjustShape (dense_new.go:71-132). *)
Definition from_slice (d : list T) (shape : option (list Z)) : option dense :=
  let check r c := if ((r <? 0) || (c <? 0))%Z then None
                   else if (Z.of_nat (length d) =? r * c)%Z then Some (mkDense (Z.to_nat r) (Z.to_nat c) d) else None in
  match shape with
  | None => Some (mkDense (length d) 1 d)
  | Some [r] => check r 1%Z
  | Some [r; c] => check r c
  | Some _ => None
  end.

(** Scalar (dense_new.go:48-54, 134-144) *)
Definition scalar (v : T) : dense := mkDense 1 1 [v].

(** IsVector, IsScalar (matrix.go:249-258) *)
Definition is_vector (m : dense) : bool := (rows m =? 1) || (cols m =? 1).
Definition is_scalar (m : dense) : bool := length (data m) =? 1.
(** SameDims (matrix.go:261-279) *)
Definition same_dims (a b : dense) : bool := (rows a =? rows b) && (cols a =? cols b).

(** Item (dense.go:96-101) *)
Definition item (m : dense) : option T := if is_scalar m then nth_error (data m) 0 else None.

(** set, at (dense.go:135-183): one or two indices *)
Definition offset (m : dense) (idx : list Z) : option nat :=
  match idx with
  | [i] =>
      if negb (rows m =? 1) && negb (cols m =? 1) then None
      else if ((i <? 0) || (Z.of_nat (length (data m)) <=? i))%Z then None
      else Some (Z.to_nat i)
  | [r; c] =>
      if ((r <? 0) || (Z.of_nat (rows m) <=? r))%Z then None
      else if ((c <? 0) || (Z.of_nat (cols m) <=? c))%Z then None
      else Some (Z.to_nat r * cols m + Z.to_nat c)
  | _ => None
  end.
Definition at_ (m : dense) (idx : list Z) : option T :=
  match offset m idx with None => None | Some k => nth_error (data m) k end.
Definition set_ (m : dense) (v : T) (idx : list Z) : option dense :=
  match offset m idx with
  | None => None
  | Some k => if k <? length (data m) then Some (mkDense (rows m) (cols m) (put (data m) k v)) else None
  end.

(** ExtractRow (dense.go:187-196) *)
Definition extract_row (m : dense) (i : Z) : option dense :=
  if ((i <? 0) || (Z.of_nat (rows m) <=? i))%Z then None
  else let start := Z.to_nat i * cols m in
       Some (mkDense 1 (cols m) (slice (data m) start (start + cols m))).
(** ExtractColumn (dense.go:200-212) *)
Definition extract_column (m : dense) (i : Z) : option dense :=
  if ((i <? 0) || (Z.of_nat (cols m) <=? i))%Z then None
  else Some (mkDense (rows m) 1 (map (fun k => nth (k * cols m + Z.to_nat i) (data m) zero) (seq 0 (rows m)))).

(** Slice (dense.go:217-242) *)
Definition slice_bad (m : dense) (fr fc tr tc : Z) : bool :=
  let dr := Z.of_nat (rows m) in let dc := Z.of_nat (cols m) in
  ((fr <? 0) || (dr <=? fr) || (fc <? 0) || (dc <=? fc) || (dr <? tr) || (dc <? tc) || (tr <? fr) || (tc <? fc))%Z.
Definition submatrix (m : dense) (fr fc tr tc : Z) : option dense :=
  if slice_bad m fr fc tr tc then None
  else
    let fr := Z.to_nat fr in let fc := Z.to_nat fc in let tr := Z.to_nat tr in let tc := Z.to_nat tc in
    if (fc =? 0) && (tc =? cols m) then
      Some (mkDense (tr - fr) (tc - fc) (slice (data m) (fr * cols m) (tr * cols m)))
    else
      Some (mkDense (tr - fr) (tc - fc)
        (fold_left (fun acc r => acc ++ slice (data m) (r * cols m + fc) (r * cols m + tc)) (seq fr (tr - fr)) [])).

(** Reshape (dense.go:246-259) *)
Definition reshape (m : dense) (shape : list Z) : option dense :=
  match shape with
  | [r; c] => if ((r <? 0) || (c <? 0))%Z then None
              else if (r * c =? Z.of_nat (length (data m)))%Z then Some (mkDense (Z.to_nat r) (Z.to_nat c) (data m)) else None
  | _ => None
  end.
(** Flatten (dense.go:288-293) *)
Definition flatten (m : dense) : dense := mkDense 1 (length (data m)) (data m).
(** ResizeVector (dense.go:310-325) *)
Definition resize_vector (m : dense) (n : Z) : option dense :=
  if negb (is_vector m) then None
  else if (n <? 0)%Z then None
  else let n := Z.to_nat n in
       if n <=? length (data m) then Some (mkDense n 1 (firstn n (data m)))
       else Some (mkDense n 1 (blit (repeat zero n) 0 (data m))).

(** T (dense.go:328-349) *)
Fixpoint transpose_loop (dRows size : nat) (vs : list T) (index : nat) (out : list T) : list T :=
  match vs with
  | [] => out
  | v :: vs =>
      let out := put out index v in
      let index := index + dRows in
      let index := if size <=? index then index - (size - 1) else index in
      transpose_loop dRows size vs index out
  end.
Definition transpose (m : dense) : dense :=
  if is_vector m then mkDense (cols m) (rows m) (blit (repeat zero (cols m * rows m)) 0 (data m))
  else mkDense (cols m) (rows m)
         (transpose_loop (rows m) (cols m * rows m) (data m) 0 (repeat zero (cols m * rows m))).

(** TransposeInPlace (dense.go:353-410).  Square matrices: *)
Definition exchange (l : list T) (k p : nat) : list T :=
  match nth_error l k, nth_error l p with
  | Some x, Some y => put (put l k y) p x
  | _, _ => l
  end.
Fixpoint square_inner (n i j fuel : nat) (l : list T) : list T :=
  match fuel with
  | O => l
  | S fuel => square_inner n i (S j) fuel (exchange l (i * n + j) (j * n + i))
  end.
Fixpoint square_outer (n i fuel : nat) (l : list T) : list T :=
  match fuel with
  | O => l
  | S fuel => square_outer n (S i) fuel (square_inner n i (S i) (n - S i) l)
  end.
(** Rectangular matrices: follow the cycles of the index map. *)
Definition from_index (rows cols j : nat) : nat := (j mod cols) * rows + j / cols.
(** dense.go:382-390: is [i] the least index of its cycle?  [fuel] bounds the
    search; [None] when it runs out. *)
Fixpoint is_leader (sigma : nat -> nat) (fuel i j : nat) : option bool :=
  match fuel with
  | O => None
  | S fuel =>
      let j := sigma j in
      if j =? i then Some true else if j <? i then Some false else is_leader sigma fuel i j
  end.
(** dense.go:392-405 *)
Fixpoint rotate (sigma : nat -> nat) (fuel i j : nat) (vi : T) (l : list T) : option (list T) :=
  match fuel with
  | O => None
  | S fuel =>
      let k := sigma j in
      match (if k =? i then Some vi else nth_error l k) with
      | None => None
      | Some v => let l := put l j v in
                  if k <=? i then Some l else rotate sigma fuel i k vi l
      end
  end.
Fixpoint cycles (sigma : nat -> nat) (size i fuel : nat) (l : list T) : option (list T) :=
  match fuel with
  | O => Some l
  | S fuel =>
      match is_leader sigma (S size) i i with
      | None => None
      | Some false => cycles sigma size (S i) fuel l
      | Some true =>
          match nth_error l i with
          | None => None
          | Some vi => match rotate sigma (S size) i i vi l with
                       | None => None
                       | Some l => cycles sigma size (S i) fuel l
                       end
          end
      end
  end.
Definition transpose_in_place (m : dense) : option dense :=
  let r := cols m in let c := rows m in
  if ((r =? 1) || (c =? 1)) || (length (data m) <=? 1) then Some (mkDense r c (data m))
  else if r =? c then Some (mkDense r c (square_outer r 0 (r - 1) (data m)))
  else match cycles (from_index r c) (length (data m)) 1 (length (data m) - 1) (data m) with
       | None => None
       | Some l => Some (mkDense r c l)
       end.

(** Range (dense.go:1142-1153).  A Go slice expression is bounded by the
    capacity, not the length: [spare] is what lies between the two. *)
Definition range (m : dense) (spare : list T) (start stop : Z) : option dense :=
  if negb (is_vector m) then None
  else if (stop <? start)%Z then None
  else if ((stop <? 0) || (start <? 0))%Z then None
  else if (Z.of_nat (length (data m ++ spare)) <? stop)%Z then None
  else let l := slice (data m ++ spare) (Z.to_nat start) (Z.to_nat stop) in Some (mkDense (length l) 1 l).

(** SplitV (dense.go:1157-1178) *)
Fixpoint split_loop (d spare : list T) (off : nat) (sizes : list Z) : option (list dense) :=
  match sizes with
  | [] => Some []
  | s :: sizes =>
      if (s <? 0)%Z then None
      else
        let stop := off + Z.to_nat s in
        if (length d <=? off) && (off <? stop) then None
        else if length (d ++ spare) <? stop then None
        else let l := slice (d ++ spare) off stop in
             match split_loop d spare stop sizes with
             | None => None
             | Some ms => Some (mkDense (length l) 1 l :: ms)
             end
  end.
Definition split_v (m : dense) (spare : list T) (sizes : list Z) : option (list dense) :=
  if negb (is_vector m) then None else split_loop (data m) spare 0 sizes.

(** Augment (dense.go:1181-1194): two nested loops of element assignments. *)
Fixpoint augment_row (m : dense) (i j fuel : nat) (l : list T) : list T :=
  match fuel with
  | O => l
  | S fuel => augment_row m i (S j) fuel (put l (i * (2 * cols m) + j) (nth (i * cols m + j) (data m) zero))
  end.
Fixpoint augment_rows (m : dense) (i fuel : nat) (l : list T) : list T :=
  match fuel with
  | O => l
  | S fuel => augment_rows m (S i) fuel (put (augment_row m i 0 (cols m) l) (i * (2 * cols m) + (i + rows m)) one)
  end.
Definition augment (m : dense) : option dense :=
  if cols m =? rows m
  then Some (mkDense (rows m) (cols m * 2) (augment_rows m 0 (rows m) (repeat zero (rows m * (cols m * 2)))))
  else None.

(** SwapInPlace (dense.go:1197-1211) *)
Fixpoint swap_loop (c r1 r2 j fuel : nat) (l : list T) : list T :=
  match fuel with
  | O => l
  | S fuel => swap_loop c r1 r2 (S j) fuel (exchange l (r1 * c + j) (r2 * c + j))
  end.
Definition swap_rows (m : dense) (r1 r2 : Z) : option dense :=
  if ((r1 <? 0) || (Z.of_nat (rows m) <=? r1))%Z then None
  else if ((r2 <? 0) || (Z.of_nat (rows m) <=? r2))%Z then None
  else Some (mkDense (rows m) (cols m) (swap_loop (cols m) (Z.to_nat r1) (Z.to_nat r2) 0 (cols m) (data m))).

(** PadRows (dense.go:1214-1232) *)
Definition pad_rows (m : dense) (n : Z) : option dense :=
  if (n <? 0)%Z then None
  else let y := zeros (rows m + Z.to_nat n) (cols m) in
       if (cols m =? 0) || (rows m =? 0) then Some y
       else Some (mkDense (rows y) (cols y) (blit (data y) 0 (data m))).
(** PadColumns (dense.go:1236-1256) *)
Fixpoint pad_loop (dCols yCols : nat) (src : list T) (xi yi fuel : nat) (y : list T) : list T :=
  match fuel with
  | O => y
  | S fuel => pad_loop dCols yCols src (xi + dCols) (yi + yCols) fuel (blit y yi (slice src xi (xi + dCols)))
  end.
Definition pad_columns (m : dense) (n : Z) : option dense :=
  if (n <? 0)%Z then None
  else let y := zeros (rows m) (cols m + Z.to_nat n) in
       if (rows m =? 0) || (cols m =? 0) then Some y
       else Some (mkDense (rows y) (cols y) (pad_loop (cols m) (cols y) (data m) 0 0 (rows m) (data y))).
(** AppendRows (dense.go:1263-1283) *)
Fixpoint append_loop (c off : nat) (vs : list dense) (out : list T) : option (list T) :=
  match vs with
  | [] => Some out
  | v :: vs => if negb (is_vector v) || negb (length (data v) =? c) then None
               else append_loop c (off + c) vs (blit out off (data v))
  end.
Definition append_rows (m : dense) (vs : list dense) : option dense :=
  let n := rows m + length vs in
  match append_loop (cols m) (length (data m)) vs (blit (repeat zero (n * cols m)) 0 (data m)) with
  | None => None
  | Some out => Some (mkDense n (cols m) out)
  end.

(** ConcatV (matrix.go:282-298) *)
Definition concat_v (vs : list dense) : option dense :=
  if forallb is_vector vs
  then let d := fold_left (fun acc v => acc ++ data v) vs [] in
       Some (mkDense (fold_left (fun s v => s + length (data v)) vs 0) 1 d)
  else None.
(** Stack (matrix.go:305-324) *)
Fixpoint stack_loop (c i : nat) (vs : list dense) (out : list T) : option (list T) :=
  match vs with
  | [] => Some out
  | v :: vs => if negb (is_vector v) then None
               else if negb (length (data v) =? c) then None
               else stack_loop c (S i) vs (blit out (i * c) (data v))
  end.
Definition stack (vs : list dense) : option dense :=
  match vs with
  | [] => Some (mkDense 0 0 [])
  | v :: _ =>
      let c := length (data v) in
      match stack_loop c 0 vs (repeat zero (length vs * c)) with
      | None => None
      | Some out => Some (mkDense (length vs) c out)
      end
  end.

(** CreateOneHotVector, CreateIdentityMatrix, InitializeMatrix (dense_new.go:157-196) *)
Definition one_hot (size index : Z) : option (list T) :=
  if (size <? 0)%Z then None
  else if ((index <? 0) || (size <=? index))%Z then None
  else Some (put (repeat zero (Z.to_nat size)) (Z.to_nat index) one).
Fixpoint identity_loop (size i fuel : nat) (l : list T) : list T :=
  match fuel with
  | O => l
  | S fuel => if i <? size * size then identity_loop size (i + (size + 1)) fuel (put l i one) else l
  end.
Definition identity_data (size : nat) : list T :=
  identity_loop size 0 (size * size) (repeat zero (size * size)).
(** The counters r, c of InitializeMatrix and Apply (dense_new.go:181-195, dense.go:1325-1335) *)
Fixpoint walk {U V : Type} (cs : nat) (fn : nat -> nat -> U -> V) (r c : nat) (vs : list U) : list V :=
  match vs with
  | [] => []
  | v :: vs => fn r c v ::
      (if S c =? cs then walk cs fn (S r) 0 vs else walk cs fn r (S c) vs)
  end.
Definition initialize (r c : nat) (fn : nat -> nat -> T) : list T :=
  walk c (fun i j _ => fn i j) 0 0 (repeat zero (r * c)).
(** Apply (dense.go:1312-1336), ApplyInPlace and ApplyWithAlpha (1339-1389) *)
Definition apply (m : dense) (fn : nat -> nat -> T -> T) : dense :=
  mkDense (rows m) (cols m) (walk (cols m) fn 0 0 (data m)).
Definition apply_in_place (m : dense) (fn : nat -> nat -> T -> T) (a : dense) : option dense :=
  if same_dims m a then Some (mkDense (rows m) (cols m) (walk (cols m) fn 0 0 (data a))) else None.
(** ApplyWithAlphaInPlace (dense.go:1393-1404): nested loops over the indices. *)
Fixpoint apply_row (a : dense) (fn : nat -> nat -> T -> T) (r c fuel : nat) (l : list T) : list T :=
  match fuel with
  | O => l
  | S fuel => apply_row a fn r (S c) fuel (put l (r * cols a + c) (fn r c (nth (r * cols a + c) (data a) zero)))
  end.
Fixpoint apply_all (a : dense) (fn : nat -> nat -> T -> T) (r fuel : nat) (l : list T) : list T :=
  match fuel with
  | O => l
  | S fuel => apply_all a fn (S r) fuel (apply_row a fn r 0 (cols a) l)
  end.
Definition apply_alpha_in_place (m : dense) (fn : nat -> nat -> T -> T) (a : dense) : option dense :=
  if same_dims m a then Some (mkDense (rows m) (cols m) (apply_all a fn 0 (rows m) (data m))) else None.

(** DoNonZero (dense.go:1408-1418): the calls made, in order. *)
Fixpoint nonzero_row (is_zero : T -> bool) (l : list T) (r c di fuel : nat) : list (nat * nat * T) :=
  match fuel with
  | O => []
  | S fuel => let v := nth di l zero in
              (if is_zero v then [] else [(r, c, v)]) ++ nonzero_row is_zero l r (S c) (S di) fuel
  end.
Fixpoint nonzero_rows (is_zero : T -> bool) (l : list T) (cs r di fuel : nat) : list (nat * nat * T) :=
  match fuel with
  | O => []
  | S fuel => nonzero_row is_zero l r 0 di cs ++ nonzero_rows is_zero l cs (S r) (di + cs) fuel
  end.
Definition do_non_zero (is_zero : T -> bool) (m : dense) : list (nat * nat * T) :=
  nonzero_rows is_zero (data m) (cols m) 0 0 (rows m).

(** Clone, Copy (dense.go:1435-1449), SetData (68-74) *)
Definition clone (m : dense) : dense := mkDense (rows m) (cols m) (data m).
Definition copy_from (m o : dense) : option dense :=
  if same_dims m o then Some (mkDense (rows m) (cols m) (data o)) else None.
Definition set_data (m : dense) (l : list T) : option dense :=
  if length l =? length (data m) then Some (mkDense (rows m) (cols m) l) else None.
End Structure.
