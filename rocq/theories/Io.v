(** Model of kernels/cpu/io.hpp, ops/io.hpp and ops/io_tar.hpp.

    Files are byte strings; a little-endian host is assumed.  Failures of the
    device while writing are not modelled. *)
From Coq Require Import ZArith List Bool.
From Verif Require Import Base Traits.
Import ListNotations.
Open Scope Z_scope.
Open Scope model_scope.

(** Object representation of an element type. *)
Record codec (T : Type) : Type := mkcodec { csize : nat; enc : T -> list Z; dec : list Z -> T }.
Arguments mkcodec {T} _ _ _.
Arguments csize {T} _.
Arguments enc {T} _ _.
Arguments dec {T} _ _.

(** A std::istream: the bytes not yet read, and good(). *)
Record stream : Type := mkstream { rest : list Z; good : bool }.

(** is.read(p, n): the bytes delivered.  A short read sets failbit. *)
Definition sread (n : nat) (is : stream) : list Z * stream :=
  if good is
  then (firstn n (rest is), mkstream (skipn n (rest is)) (Nat.leb n (length (rest is))))
  else ([], is).

(** uint32_t as four bytes in memory, and back. *)
Definition le4 (x : Z) : list Z := [x mod 256; x / 2 ^ 8 mod 256; x / 2 ^ 16 mod 256; x / 2 ^ 24 mod 256].
Definition of_le4 (l : list Z) : Z :=
  nth 0 l 0 + 2 ^ 8 * nth 1 l 0 + 2 ^ 16 * nth 2 l 0 + 2 ^ 24 * nth 3 l 0.

(** byte_endian_swapped (kernels/cpu/io.hpp:17-23). *)
Definition byte_endian_swapped (x : Z) : Z :=
  let p := le4 x in of_le4 [nth 3 p 0; nth 2 p 0; nth 1 p 0; nth 0 p 0].

(** Reading a byte of a buffer that the stream did not deliver is undefined. *)
Definition byte_at {V} (l : list Z) (i : nat) : M V Z :=
  match nth_error l i with Some b => ret b | None => undef end.

(** The i-th uint32_t of a buffer. *)
Definition word_at {V} (l : list Z) (i : nat) : M V Z :=
  let c := firstn 4 (skipn (4 * i) l) in
  if Nat.eqb (length c) 4 then ret (of_le4 c) else undef.

Fixpoint words {V} (l : list Z) (is : list nat) : M V (list Z) :=
  match is with
  | [] => ret []
  | i :: is => w <- word_at l i ;; ws <- words l is ;; ret (w :: ws)
  end.

Section Io.
  Context {V T : Type} (dt : dtype V T) (cd : codec T).
  (** encoding::value<R>() (stdtensor). *)
  Context (code : Z).

  (** The cell of an element when its leading bytes are overwritten by [ch]. *)
  Definition patch (ch : list Z) (c : cell V) : cell V :=
    if Nat.eqb (length ch) (csize cd) then Init (emb dt (dec cd ch))
    else match ch, c with
         | [], _ => c
         | _, Init v => match prj dt v with
                        | Some o => Init (emb dt (dec cd (ch ++ skipn (length ch) (enc cd o))))
                        | None => c
                        end
         | _, _ => c
         end.

  Definition patch_at (p : loc) (ch : list Z) : M V unit :=
    fun s => match ch, cells s p with
             | [], _ => Ok tt s
             | _, Unmapped => UB
             | _, c => Ok tt (mkst (fun q => if loc_eqb q p then patch ch c else cells s q) (nextb s))
             end.

  (** The bytes delivered into y.data(), element by element. *)
  Definition chunk (l : list Z) (i : Z) : list Z := firstn (csize cd) (skipn (Z.to_nat i * csize cd) l).
  Definition load_bytes (y : tensor) (l : list Z) : M V unit :=
    for_ (zrange (size y)) (fun i => patch_at (daddr y i) (chunk l i)).

  (** serializer::read (kernels/cpu/io.hpp:58-81). *)
  Definition deserialize (y : tensor) (is : stream) : M V unit :=
    let r := length (tdims y) in
    let '(magic, is) := sread 4 is in
    m0 <- byte_at magic 0 ;; contract (m0 =? 0) ;;;
    m1 <- byte_at magic 1 ;; contract (m1 =? 0) ;;;
    m2 <- byte_at magic 2 ;;
    m3 <- byte_at magic 3 ;;
    contract (m2 =? code) ;;;
    contract (m3 =? Z.of_nat r) ;;;
    let '(buffer, is) := sread (4 * r) is in
    ws <- words buffer (seq 0 r) ;;
    for_ (combine (map byte_endian_swapped ws) (tdims y)) (fun p => contract (fst p =? snd p)) ;;;
    let '(data, is) := sread (csize cd * Z.to_nat (size y)) is in
    load_bytes y data.

  (** serializer::write (kernels/cpu/io.hpp:83-100). *)
  Definition serialize (x : tensor) : M V (list Z) :=
    data <- foldM (zrange (size x)) (fun bs i => v <- load dt (daddr x i) ;; ret (bs ++ enc cd v)) [] ;;
    ret ([0; 0; code; Z.of_nat (length (tdims x))]
           ++ flat_map (fun d => le4 (byte_endian_swapped d)) (tdims x) ++ data).

  (** Files by name. *)
  Definition filesystem : Type := list Z -> option (list Z).

  (** readfile (kernels/cpu/io.hpp:104-122, ops/io.hpp:8-21). *)
  Definition op_readfile (fs : filesystem) (name : list Z) (y : tensor) : M V unit :=
    match fs name with
    | None => throw RuntimeError
    | Some content => deserialize y (mkstream content true)
    end.

  (** writefile (kernels/cpu/io.hpp:124-142, ops/io.hpp:23-36); [can_open] tells
      which names can be opened for writing. *)
  Definition op_writefile (can_open : list Z -> bool) (fs : filesystem) (name : list Z) (x : tensor) : M V filesystem :=
    if can_open name
    then content <- serialize x ;;
         ret (fun n => if list_eq_dec Z.eq_dec n name then Some content else fs n)
    else throw RuntimeError.
End Io.

(** ** tar *)

(** std::string(p, n).c_str(): up to the first NUL. *)
Fixpoint c_str (l : list Z) : list Z :=
  match l with
  | [] => []
  | b :: l => if b =? 0 then [] else b :: c_str l
  end.

(** std::stoll(s, &pos, 8): white space, sign, octal digits up to the first
    other character; std::invalid_argument when there is no digit.  Twelve digits
    cannot overflow. *)
Definition is_space (b : Z) : bool := (b =? 32) || ((9 <=? b) && (b <=? 13)).
Fixpoint skip_space (l : list Z) : list Z :=
  match l with
  | b :: l' => if is_space b then skip_space l' else l
  | [] => []
  end.
Definition is_octal (b : Z) : bool := (48 <=? b) && (b <=? 55).
Fixpoint octal (acc : Z) (l : list Z) : Z :=
  match l with
  | b :: l' => if is_octal b then octal (8 * acc + (b - 48)) l' else acc
  | [] => acc
  end.
Definition stoll8 (s : list Z) : outcome Z :=
  let '(neg, l) := match skip_space s with
                   | b :: l => if b =? 45 then (true, l) else if b =? 43 then (false, l) else (false, b :: l)
                   | [] => (false, [])
                   end in
  match l with
  | b :: _ => if is_octal b then Ret (if neg then - octal 0 l else octal 0 l) else Exn InvalidArgument
  | [] => Exn InvalidArgument
  end.

(** tar_header (ops/io_tar.hpp:11-26) without the fields that are never used. *)
Record tar_header : Type := mkhdr { th_name : list Z; th_size : Z; th_off : Z }.

(** parse_tar_header (ops/io_tar.hpp:29-39).  The unaligned reads of mode, uid
    and gid are not modelled. *)
Definition parse_tar_header (buffer : list Z) : outcome (list Z * Z) :=
  n <<- stoll8 (firstn 12 (skipn 124 buffer)) ;;
  Ret (c_str (firstn 100 buffer), n).

(** const int n_blocks and n_blocks * block_size (ops/io_tar.hpp:97-99). *)
Definition n_blocks (n : Z) : Z := to_i32 (Z.quot n 512 + (if Z.rem n 512 =? 0 then 0 else 1)).
Definition block_bytes (n : Z) : outcome Z :=
  let b := n_blocks n * 512 in
  if (- 2 ^ 31 <=? b) && (b <? 2 ^ 31) then Ret b else Undef.

(** The loop of make_tar_index (ops/io_tar.hpp:88-100).  [pos] is the stream
    position, [None] after a failed seek (tellg() is then -1 and reads leave the
    buffer as it is).  [None] as result: not finished after [fuel] rounds. *)
Fixpoint tar_loop (fuel : nat) (content buffer : list Z) (pos : option Z) (index : list tar_header)
  : option (outcome (list tar_header)) :=
  match fuel with
  | O => None
  | S fuel =>
      let tg := match pos with Some p => p | None => -1 end in
      if tg <? Z.of_nat (length content) then
        let buffer := match pos with Some p => firstn 512 (skipn (Z.to_nat p) content) | None => buffer end in
        let pos := match pos with Some p => Some (p + 512) | None => None end in
        if hd 0 buffer =? 0 then Some (Ret index)
        else match parse_tar_header buffer with
             | Ret (name, n) =>
                 let off := match pos with Some p => p | None => -1 end in
                 match block_bytes n with
                 | Ret b =>
                     let pos := match pos with
                                | Some p => if p + b <? 0 then None else Some (p + b)
                                | None => None
                                end in
                     tar_loop fuel content buffer pos (mkhdr name n off :: index)
                 | Exn e => Some (Exn e)
                 | Undef => Some Undef
                 end
             | Exn e => Some (Exn e)
             | Undef => Some Undef
             end
      else Some (Ret index)
  end.

(** make_tar_index (ops/io_tar.hpp:64-103).  The index is a list of headers, the
    newest first, standing for the std::map. *)
Definition make_tar_index (fuel : nat) (fs : filesystem) (filename : list Z) : option (outcome (list tar_header)) :=
  match fs filename with
  | None => Some (Exn RuntimeError)
  | Some content =>
      if Z.of_nat (length content) mod 512 =? 0
      then tar_loop fuel content [] (Some 0) []
      else Some (Exn RuntimeError)
  end.

(** tar_index::operator() (ops/io_tar.hpp:51-57). *)
Definition tar_find (index : list tar_header) (name : list Z) : outcome tar_header :=
  match find (fun h => if list_eq_dec Z.eq_dec (th_name h) name then true else false) index with
  | Some h => Ret h
  | None => Exn InvalidArgument
  end.

(** readtar (ops/io.hpp:39-65); [None]: the indexing has not finished. *)
Definition op_readtar {V T} (dt : dtype V T) (cd : codec T) (code : Z) (fuel : nat)
           (fs : filesystem) (filename name : list Z) (y : tensor) (s : st V) : option (res V unit) :=
  match make_tar_index fuel fs filename with
  | None => None
  | Some o =>
      Some ((idx <- lift o ;;
             info <- lift (tar_find idx name) ;;
             match fs filename with
             | None => throw RuntimeError
             | Some content =>
                 (* a failed seek leaves the stream failed *)
                 deserialize dt cd code y
                   (mkstream (skipn (Z.to_nat (th_off info)) content) (0 <=? th_off info))
             end) s)
  end.
