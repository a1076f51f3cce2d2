(** Model of src/lib/loader/MeshTriangleLoader.inl.  Text is a list of bytes.  The formatted input of <iostream> is modelled
    with the documented behaviour of libstdc++ in the classic locale; only the conversion of a decimal literal to T (strtod) is a
    parameter. *)
From Coq Require Import List Arith Bool ZArith Ascii.
From Verif Require Import Base Num VectorModel SimplexModel MeshModel UtilsModel.
Import ListNotations.
Open Scope res_scope.

Notation text := (list ascii).
(** LoadTriangleNodeErrorException, LoadTriangleElementErrorException, MeshTriangleLoader.h:12-13, and std::length_error of
    std::vector::reserve *)
Definition NodeError : exn := LoaderError 0.
Definition ElementError : exn := LoaderError 1.
Definition LengthError : exn := LoaderError 3.

(** Character classes: isspace and the characters of numbers.  A negative char passed to isspace (MeshTriangleLoader.inl:172)
    is formally undefined; glibc answers 0, which is what is modelled. *)
Definition code (c : ascii) : nat := nat_of_ascii c.
Definition isspace (c : ascii) : bool := ((9 <=? code c) && (code c <=? 13)) || (code c =? 32).
Definition isdigit (c : ascii) : bool := (48 <=? code c) && (code c <=? 57).
Definition is_hash (c : ascii) : bool := code c =? 35.
Definition is_sign (c : ascii) : bool := (code c =? 43) || (code c =? 45).
Definition is_nl (c : ascii) : bool := code c =? 10.

(** std::getline until the stream is exhausted, MeshTriangleLoader.inl:39, 99: a last line without '\n' counts if it is not empty *)
Fixpoint getlines_from (cur : text) (l : text) : list text :=
  match l with
  | [] => match cur with [] => [] | _ => [cur] end
  | c :: r => if is_nl c then cur :: getlines_from [] r else getlines_from (cur ++ [c]) r
  end.
Definition getlines (l : text) : list text := getlines_from [] l.

(** skipWS, MeshTriangleLoader.inl:160-177; l is the text from position it to the end *)
Fixpoint skip_from (l : text) (it : nat) : nat :=
  match l with
  | [] => it
  | c :: r => if is_hash c then it + length l else if isspace c then skip_from r (S it) else it
  end.
Definition skipWS (line : text) (it : nat) : nat := skip_from (skipn it line) it.

(** Result of `stream >> v; stream.tellg()`: the value and the position, None for tellg() = -1, which it is when the number was
    not read (failbit) and also when the end of the text was reached while reading it (eofbit makes tellg's sentry fail). *)
Definition position (failed : bool) (consumed total : nat) : option nat :=
  if failed || (consumed =? total) then None else Some consumed.
(** Reading integers, std::num_get with base 10: optional sign, digits *)
Definition sign_len (l : text) : nat := match l with c :: _ => if is_sign c then 1 else 0 | [] => 0 end.
Definition negative (l : text) : bool := match l with c :: _ => code c =? 45 | [] => false end.
Fixpoint digits (l : text) : text := match l with c :: r => if isdigit c then c :: digits r else [] | [] => [] end.
Definition decimal (l : text) : Z := fold_left (fun v c => (10 * v + Z.of_nat (code c - 48))%Z) l 0%Z.
(** `stream >> size_t`: no digits give 0, overflow gives the maximum (both failures), a minus sign wraps around *)
Definition read_size (l : text) : Z * option nat :=
  let ds := digits (skipn (sign_len l) l) in
  let v := decimal ds in
  let empty := match ds with [] => true | _ => false end in
  let over := (M64 <=? v)%Z in
  ((if empty then 0 else if over then M64 - 1 else if negative l then u64 (- v) else v)%Z,
   position (empty || over) (sign_len l + length ds) (length l)).
(** `stream >> int` *)
Definition read_int (l : text) : Z * option nat :=
  let ds := digits (skipn (sign_len l) l) in
  let v := (if negative l then - decimal ds else decimal ds)%Z in
  let empty := match ds with [] => true | _ => false end in
  let over := (2 ^ 31 - 1 <? v)%Z || (v <? - 2 ^ 31)%Z in
  ((if empty then 0 else if over then (if negative l then - 2 ^ 31 else 2 ^ 31 - 1) else v)%Z,
   position (empty || over) (sign_len l + length ds) (length l)).
(** The characters std::num_get takes for a floating-point number (libstdc++ _M_extract_float) after the sign: digits, one '.',
    one 'e' or 'E' after at least one digit, a sign directly after it *)
Fixpoint mantissa (dec sci digit : bool) (l : text) : text :=
  match l with
  | [] => []
  | c :: r =>
    if isdigit c then c :: mantissa dec sci true r
    else if (code c =? 46) && negb dec && negb sci then c :: mantissa true sci digit r
    else if ((code c =? 69) || (code c =? 101)) && negb sci && digit then
      c :: match r with
           | s :: r' => if is_sign s then s :: mantissa dec true digit r' else mantissa dec true digit r
           | [] => []
           end
    else []
  end.
Definition float_chars (l : text) : text := firstn (sign_len l) l ++ mantissa false false false (skipn (sign_len l) l).

Section Tri.
Context {N : Num}.
(** strtod and its like: value, and whether it failed (no or not all characters used, overflow) *)
Variable conv : text -> N * bool.
(** `stream >> T` *)
Definition read_T (l : text) : N * option nat :=
  let w := float_chars l in (fst (conv w), position (snd (conv w)) (length w) (length l)).

(** extractFirstNumber, MeshTriangleLoader.inl:179-192: `start += tellg()`; one before the beginning of the line is undefined *)
Definition extract {A} (rd : text -> A * option nat) (line : text) (it : nat) : res (A * nat) :=
  let (v, t) := rd (skipn it line) in
  match t with
  | Some k => Ok (v, it + k)
  | None => match it with O => UB | S j => Ok (v, j) end
  end.
(** skipWS followed by `if (it == line.end()) throw e`, e.g. MeshTriangleLoader.inl:73-75 *)
Definition next_word (e : exn) (line : text) (it : nat) : res nat :=
  let it := skipWS line it in if it =? length line then Throw e else Ok it.
(** Mesh::reserveVertices, Mesh.inl:129-134; vector::max_size() of pointers is 2^60 - 1.  Running out of memory is not modelled. *)
Definition reserve (count : Z) : res unit :=
  let* _ := assert_ (0 <? count)%Z in if (2 ^ 60 - 1 <? count)%Z then Throw LengthError else Ok tt.
(** The local variables of setupNode and setupElement, MeshTriangleLoader.inl:33-35: parseMode <> 0, indexShift, nextIndex *)
Record pstate : Type := mkP { body : bool; shift : Z; next : Z; mesh : mst N }.
(** Header line, MeshTriangleLoader.inl:47-60, 107-120; k is the required second number, e the exception *)
Definition header (k : Z) (e : exn) (line : text) (it : nat) (st : pstate) : res pstate :=
  let* r := extract read_size line it in
  let '(nodes, it) := r in
  if (nodes =? 0)%Z then Throw e else
  let* it := next_word e line it in
  let* r := extract read_int line it in
  if negb (fst r =? k)%Z then Throw e else
  let* _ := reserve nodes in
  Ok (mkP true (shift st) (next st) (mesh st)).
(** The running number of a line, MeshTriangleLoader.inl:64-70, 124-130; size_t arithmetic wraps around *)
Definition row_index (line : text) (it : nat) (st : pstate) : res (Z * nat) :=
  let* r := extract read_size line it in
  let '(index, it) := r in
  let sh := (if index =? 0 then 0 else shift st)%Z in
  if negb (u64 (index - sh) =? next st)%Z then Throw NodeError else Ok (sh, it).
(** Vertex line, MeshTriangleLoader.inl:64-87 *)
Definition node_row (line : text) (it : nat) (st : pstate) : res pstate :=
  let* r := row_index line it st in
  let '(sh, it) := r in
  let* it := next_word NodeError line it in
  let* r := extract read_T line it in
  let '(e1, it) := r in
  let* it := next_word NodeError line it in
  let* r := extract read_T line it in
  let '(s, p) := new_vertex (mesh st) [e1; fst r] in
  let* s := m_addVertex s (Some p) in
  Ok (mkP true sh (u64 (next st + 1)) s).
(** mesh.vertex(i - indexShift): unchecked vector access *)
Definition tri_vertex (s : mst N) (i : Z) : res nat :=
  if (i <? Z.of_nat (length (mV s)))%Z then m_vertex s (Z.to_nat i) else UB.
(** Element line, MeshTriangleLoader.inl:124-155.  As in ObjModel the element is allocated after its corners are known. *)
Definition element_row (line : text) (it : nat) (st : pstate) : res pstate :=
  let* r := row_index line it st in
  let '(sh, it) := r in
  let* it := next_word NodeError line it in
  let* r := extract read_size line it in
  let '(i1, it) := r in
  let* it := next_word NodeError line it in
  let* r := extract read_size line it in
  let '(i2, it) := r in
  let* it := next_word NodeError line it in
  let* r := extract read_size line it in
  let i3 := fst r in
  let* a := tri_vertex (mesh st) (u64 (i1 - sh)) in
  let* b := tri_vertex (mesh st) (u64 (i2 - sh)) in
  let* c := tri_vertex (mesh st) (u64 (i3 - sh)) in
  let '(s, x) := new_element (mesh st) [Some a; Some b; Some c] in
  let* s := m_addElement s (Some x) in
  Ok (mkP true sh (u64 (next st + 1)) s).
(** The loop over the lines, MeshTriangleLoader.inl:39-45, 99-105 *)
Definition per_line (head row : text -> nat -> pstate -> res pstate) (line : text) (st : pstate) : res pstate :=
  let it := skipWS line 0 in
  if it =? length line then Ok st else if body st then row line it st else head line it st.
(** setupNode, MeshTriangleLoader.inl:30-89 *)
Definition setupNode (s : mst N) (l : text) : res (mst N) :=
  let* st := foreach (getlines l) (per_line (header 2 NodeError) node_row) (mkP false 1 0 s) in Ok (mesh st).
(** setupElement, MeshTriangleLoader.inl:91-158 *)
Definition setupElement (s : mst N) (l : text) : res (mst N) :=
  let* st := foreach (getlines l) (per_line (header 3 ElementError) element_row) (mkP false 1 0 s) in Ok (mesh st).
(** loadString, MeshTriangleLoader.inl:18-28 *)
Definition loadString (nodeStr eleStr : text) : res (mst N) :=
  let* s := setupNode m_new nodeStr in
  let* s := setupElement s eleStr in
  m_setupNeighbors s.
(** loadFile, MeshTriangleLoader.inl:7-16: a file that cannot be opened (None) reads as empty *)
Definition loadFile (nodeFile eleFile : option text) : res (mst N) :=
  let content f := match f with Some l => l | None => [] end in loadString (content nodeFile) (content eleFile).
End Tri.
Arguments mkP {N} _ _ _ _. Arguments body {N} _. Arguments shift {N} _. Arguments next {N} _. Arguments mesh {N} _.
