(** Specification vocabulary for C59: the .node and .ele format of Triangle. *)
From Coq Require Import List Arith Bool ZArith Ascii.
From Verif Require Import Base Num MeshModel MeshSpec.
Import ListNotations.

Definition newline : ascii := "010".
Definition space (c : ascii) : Prop := In c [" "; "009"; "011"; "012"; "013"]%char.
Definition spaces (l : list ascii) : Prop := l <> [] /\ Forall space l.
Definition digit (c : ascii) : Prop := In c ["0"; "1"; "2"; "3"; "4"; "5"; "6"; "7"; "8"; "9"]%char.
Definition digit_value (c : ascii) : Z := (Z.of_nat (nat_of_ascii c) - 48)%Z.
(** The text ends here or goes on with white space or a comment. *)
Definition ends (l : list ascii) : Prop := match l with [] => True | c :: _ => space c \/ c = "#"%char end.
(** Natural numbers in decimal notation. *)
Fixpoint value (v : Z) (l : list ascii) : Z := match l with [] => v | c :: r => value (10 * v + digit_value c) r end.
Definition numeral (w : list ascii) (v : Z) : Prop := w <> [] /\ Forall digit w /\ value 0 w = v /\ (v < 2 ^ 64)%Z.
(** Decimal literals: an optional sign, digits with an optional point (at least one digit), an optional exponent. *)
Definition sign (l : list ascii) : Prop := l = [] \/ l = ["+"%char] \/ l = ["-"%char].
Definition literal (w : list ascii) : Prop :=
  exists s a p b x, w = s ++ a ++ p ++ b ++ x /\ sign s /\ Forall digit a /\ Forall digit b /\ a ++ b <> [] /\
    (p = ["."%char] \/ p = [] /\ b = []) /\
    (x = [] \/ exists e s' d, x = e :: s' ++ d /\ (e = "e"%char \/ e = "E"%char) /\ sign s' /\ Forall digit d /\ d <> []).

Section TriSpec.
Context {N : Num}.
(** The conversion of literals used by operator>>(istream, T): value and failure. *)
Variable conv : list ascii -> N * bool.
(** The word w denotes the number x. *)
Definition denotes (w : list ascii) (x : N) : Prop := literal w /\ conv w = (x, false).

(** A line without content: white space, or white space and a comment. *)
Definition blank (l : list ascii) : Prop := exists s r, l = s ++ r /\ Forall space s /\ (r = [] \/ exists r', r = "#"%char :: r').
(** A line made of words separated by white space, which may be indented and go on after the last word. *)
Fixpoint words_then (ws : list (list ascii)) (l : list ascii) : Prop :=
  match ws with
  | [] => ends l
  | w :: r => exists s l', l = s ++ w ++ l' /\ spaces s /\ words_then r l'
  end.
Definition line_of (ws : list (list ascii)) (l : list ascii) : Prop :=
  match ws with [] => blank l | w :: r => exists s l', l = s ++ w ++ l' /\ Forall space s /\ words_then r l' end.
(** The first line: the number of entries and the number k *)
Definition header_line (k : Z) (l : list ascii) : Prop :=
  exists a b n, line_of [a; b] l /\ numeral a n /\ (0 < n < 2 ^ 60)%Z /\ numeral b k.
(** Line i of the vertices, numbered from base: i+base x y *)
Definition vertex_line (base : Z) (i : nat) (p : N * N) (l : list ascii) : Prop :=
  exists a b c, line_of [a; b; c] l /\ numeral a (base + Z.of_nat i) /\ denotes b (fst p) /\ denotes c (snd p).
(** Line i of the elements, everything numbered from base: i+base a+base b+base c *)
Definition element_line (base : Z) (i : nat) (f : nat * nat * nat) (l : list ascii) : Prop :=
  exists w a b c, line_of [w; a; b; c] l /\ numeral w (base + Z.of_nat i) /\ match f with (x, y, z) =>
    numeral a (base + Z.of_nat x) /\ numeral b (base + Z.of_nat y) /\ numeral c (base + Z.of_nat z) end.
(** The lines of a file; the last one may lack the newline. *)
Definition file_lines (f : list ascii) (ls : list (list ascii)) : Prop :=
  (forall l, In l ls -> ~ In newline l) /\
  (f = concat (map (fun l => l ++ [newline]) ls) \/ f ++ [newline] = concat (map (fun l => l ++ [newline]) ls)).
(** ls has the content lines cs and otherwise only blank lines. *)
Inductive content : list (list ascii) -> list (list ascii) -> Prop :=
| content_nil : content [] []
| content_blank l ls cs : blank l -> content ls cs -> content (l :: ls) cs
| content_line l ls cs : ~ blank l -> content ls cs -> content (l :: ls) (l :: cs).
(** The file has a header line and, for each entry of a list, one line, in order, numbered from 0 or from 1. *)
Definition table {A} (k : Z) (row : Z -> nat -> A -> list ascii -> Prop) (entries : list A) (f : list ascii) : Prop :=
  exists ls h rows base, file_lines f ls /\ content ls (h :: rows) /\ header_line k h /\ (base = 0 \/ base = 1)%Z /\
    length rows = length entries /\ forall i a l, nth_error entries i = Some a -> nth_error rows i = Some l -> row base i a l.
Definition node_file (pts : list (N * N)) (f : list ascii) : Prop := table 2 vertex_line pts f.
Definition element_file (els : list (nat * nat * nat)) (f : list ascii) : Prop := table 3 element_line els f.
(** Adding exactly these vertices, then exactly these elements. *)
Definition tri_program (pts : list (N * N)) (els : list (nat * nat * nat)) : list (mop N) :=
  map (fun p => AddVertex [fst p; snd p]) pts ++ map (fun f => match f with (x, y, z) => AddElement x y z end) els.
Definition refers_to (n : nat) (els : list (nat * nat * nat)) : Prop := forall x y z, In (x, y, z) els -> x < n /\ y < n /\ z < n.
(** ** Files with an error *)
(** Nothing but these words, at least one blank and perhaps a comment after the last. *)
Fixpoint words_only (ws : list (list ascii)) (l : list ascii) : Prop :=
  match ws with
  | [] => blank l /\ l <> []
  | w :: r => exists s l', l = s ++ w ++ l' /\ spaces s /\ words_only r l'
  end.
Definition only (w : list ascii) (ws : list (list ascii)) (l : list ascii) : Prop := exists s l', l = s ++ w ++ l' /\ Forall space s /\ words_only ws l'.
(** After a header and good lines for some entries comes a line with property bad. *)
Definition table_then {A} (k : Z) (row : Z -> nat -> A -> list ascii -> Prop) (entries : list A) (bad : Z -> nat -> list ascii -> Prop) (f : list ascii) : Prop :=
  exists ls h rows l more base, file_lines f ls /\ content ls (h :: rows ++ l :: more) /\ header_line k h /\ (base = 0 \/ base = 1)%Z /\
    length rows = length entries /\ (forall i a l, nth_error entries i = Some a -> nth_error rows i = Some l -> row base i a l) /\ bad base (length rows) l.
(** The header is wrong: no entries, not k, or k is missing. *)
Definition bad_header (k : Z) (l : list ascii) : Prop :=
  exists a n, numeral a n /\
    (n = 0%Z /\ (exists s r, l = s ++ a ++ r /\ Forall space s /\ ends r /\ r <> []) \/
     (exists b m, line_of [a; b] l /\ numeral b m /\ m <> k) \/ only a [] l).
Definition header_wrong (k : Z) (f : list ascii) : Prop := exists ls h more, file_lines f ls /\ content ls (h :: more) /\ bad_header k h.
(** The line is not numbered consecutively. *)
Definition wrong_number (base : Z) (i : nat) (l : list ascii) : Prop :=
  exists s w r n, l = s ++ w ++ r /\ Forall space s /\ ends r /\ r <> [] /\ numeral w n /\
    if i =? 0 then n <> 0%Z /\ n <> 1%Z else n <> (base + Z.of_nat i)%Z.
(** A coordinate or a corner is missing. *)
Definition short_vertex_line (base : Z) (i : nat) (l : list ascii) : Prop :=
  exists a, numeral a (base + Z.of_nat i) /\ (only a [] l \/ exists b x, denotes b x /\ only a [b] l).
Definition short_element_line (base : Z) (i : nat) (l : list ascii) : Prop :=
  exists a, numeral a (base + Z.of_nat i) /\
    (only a [] l \/ (exists b n, numeral b n /\ only a [b] l) \/ (exists b n c m, numeral b n /\ numeral c m /\ only a [b; c] l)).
(** An element refers to a vertex that does not exist (n vertices). *)
Definition bad_reference (n : nat) (base : Z) (i : nat) (l : list ascii) : Prop :=
  exists w a b c x y z, line_of [w; a; b; c] l /\ numeral w (base + Z.of_nat i) /\ numeral a x /\ numeral b y /\ numeral c z /\
    exists v, In v [x; y; z] /\ ~ (base <= v < base + Z.of_nat n)%Z.
(** Every line that is not empty begins with white space. *)
Definition indented (f : list ascii) : Prop := forall ls l c r, file_lines f ls -> In l ls -> l = c :: r -> space c.
End TriSpec.
