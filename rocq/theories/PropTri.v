(** Property C59: MeshTriangleLoader::loadString and loadFile.  TriSpec.v defines the format: [node_file conv pts f]: the text f is a
    .node file with exactly the points pts in order, numbered from 0 or 1, with comments, blank lines, any white space and
    further columns; [element_file els g] the same for .ele files.  conv is the conversion of decimal literals to T. *)
From Coq Require Import String List Arith Bool ZArith QArith Ascii Lia.
From Verif Require Import Base BaseProofs Num NumInst ExampleBase SimplexModel MeshModel MeshSpec HyperSpec TriModel TriSpec TriProofs TriResult PropMesh.
Import ListNotations.
Local Open Scope list_scope.
Local Open Scope nat_scope.
Open Scope res_scope.

(** ** C59 *)
(** Well-formed files: the mesh is the one built by adding exactly these vertices and elements in order. *)
Theorem C59_loads (N : Num) : forall (conv : list ascii -> N * bool) pts els f g,
  node_file conv pts f -> element_file els g -> refers_to (length pts) els ->
  loadString conv f g = let* s := build (tri_program pts els) in m_setupNeighbors s.
Proof. exact tri_loads. Qed.
(** Its vertices, elements and neighbourhood are complete; or three elements have a common edge. *)
Theorem C59_mesh (N : Num) : forall (conv : list ascii -> N * bool) pts els f g,
  node_file conv pts f -> element_file els g -> refers_to (length pts) els -> (forall x y z, In (x, y, z) els -> NoDup [x; y; z]) ->
  let T := map (fun f => match f with (x, y, z) => [x; y; z] end) els in
  (~ three_share_a_face T -> returns (loadString conv f g) (holds (map (fun p => [fst p; snd p]) pts) (fun _ => False) T)) /\
  (three_share_a_face T -> loadString conv f g = Throw TooManySharedFaces).
Proof. exact tri_mesh. Qed.
(** loadFile reads the first file as vertices and the second as elements. *)
Theorem C59_file (N : Num) : forall (conv : list ascii -> N * bool) pts els f g,
  node_file conv pts f -> element_file els g -> refers_to (length pts) els ->
  loadFile conv (Some f) (Some g) = let* s := build (tri_program pts els) in m_setupNeighbors s.
Proof. exact tri_loads. Qed.
(** Wrong headers are rejected, with the exception of the file concerned. *)
Theorem C59_node_header (N : Num) : forall (conv : list ascii -> N * bool) f g, header_wrong 2 f -> loadString conv f g = Throw NodeError.
Proof. exact header_nodes. Qed.
Theorem C59_element_header (N : Num) : forall (conv : list ascii -> N * bool) pts f g, node_file conv pts f -> header_wrong 3 g -> loadString conv f g = Throw ElementError.
Proof. exact header_elements. Qed.
(** Lines that are not numbered consecutively are rejected (element lines with the exception for nodes). *)
Theorem C59_node_numbers (N : Num) : forall (conv : list ascii -> N * bool) pts f g, (Z.of_nat (length pts) < 2 ^ 63)%Z ->
  table_then 2 (vertex_line conv) pts wrong_number f -> loadString conv f g = Throw NodeError.
Proof. exact nodes_numbered. Qed.
Theorem C59_element_numbers (N : Num) : forall (conv : list ascii -> N * bool) pts els f g, (Z.of_nat (length els) < 2 ^ 63)%Z ->
  node_file conv pts f -> refers_to (length pts) els -> table_then 3 element_line els wrong_number g -> loadString conv f g = Throw NodeError.
Proof. exact elements_numbered. Qed.
(** Lines with too few numbers, ending in white space or a comment, are rejected. *)
Theorem C59_node_short (N : Num) : forall (conv : list ascii -> N * bool) pts f g,
  table_then 2 (vertex_line conv) pts (short_vertex_line conv) f -> loadString conv f g = Throw NodeError.
Proof. exact nodes_short. Qed.
Theorem C59_element_short (N : Num) : forall (conv : list ascii -> N * bool) pts els f g,
  node_file conv pts f -> refers_to (length pts) els -> table_then 3 element_line els short_element_line g -> loadString conv f g = Throw NodeError.
Proof. exact elements_short. Qed.
(** Any node text whatsoever whose lines are indented: a mesh of some vertices or an exception, never an invalid access. *)
Theorem C59_indented_safe (N : Num) : forall (conv : list ascii -> N * bool) f, indented f ->
  (exists pts : list (N * N), loadString conv f [] = let* s := build (map (fun p => AddVertex [fst p; snd p]) pts) in m_setupNeighbors s) \/
  loadString conv f [] = Throw NodeError \/ loadString conv f [] = Throw LengthError.
Proof. exact nodes_safe. Qed.
(** [BUG] References are not checked: any element line referring to a vertex that does not exist is undefined behaviour. *)
Theorem C59_bad_reference_refuted (N : Num) : forall (conv : list ascii -> N * bool) pts els f g, (Z.of_nat (length pts) < 2 ^ 63)%Z ->
  node_file conv pts f -> refers_to (length pts) els -> table_then 3 element_line els (bad_reference (length pts)) g -> loadString conv f g = UB.
Proof. exact bad_reference_ub. Qed.
(** [BUG] Files that cannot be opened, and empty files, give an empty mesh. *)
Theorem C59_missing_files_refuted (N : Num) : forall conv : list ascii -> N * bool, loadFile conv None None = Ok m_new /\ loadString conv [] [] = Ok m_new.
Proof. intros. split; reflexivity. Qed.

(** *** Concrete files; decimal literals without exponent as rationals *)
Definition str := list_ascii_of_string.
Fixpoint dec_frac (l : list ascii) (num : Z) (den : positive) : option Q :=
  match l with
  | [] => Some (num # den)
  | c :: r => if isdigit c then dec_frac r (10 * num + digit_value c) (10 * den) else None
  end.
Fixpoint dec_int (l : list ascii) (num : Z) : option Q :=
  match l with
  | [] => Some (num # 1)
  | c :: r => if isdigit c then dec_int r (10 * num + digit_value c) else if code c =? 46 then dec_frac r num 1 else None
  end.
Definition dec_conv (l : list ascii) : NumQc * bool :=
  let fin o (sg : Z) := match o with Some (n # d) => ((Qcanon.Q2Qc (sg * n # d) : NumQc), false) | None => ((n0 : NumQc), true) end in
  match l with
  | [] => ((n0 : NumQc), true)
  | c :: r => if code c =? 45 then match r with [] => ((n0 : NumQc), true) | _ => fin (dec_int r 0) (-1)%Z end
              else if code c =? 43 then match r with [] => ((n0 : NumQc), true) | _ => fin (dec_int r 0) 1%Z end else fin (dec_int l 0) 1%Z
  end.
Definition nl : string := String "010" "".
Definition file (ls : list string) : list ascii := str (String.concat nl ls).
Definition positions (s : mst NumQc) := foreach (mV s) (fun p l => let* v := deref (hv s) p in Ok (l ++ [map Qcanon.this (mv_pos v)])) [].
Definition corners (s : mst NumQc) := foreach (mE s) (fun p l => let* x := deref (he s) p in Ok (l ++ [me_v x])) [].
Definition show (f g : list ascii) := let* s := loadString dec_conv f g in let* ps := positions s in let* es := corners s in Ok (ps, es).
Definition node1 : list ascii := file ["# corners"; "3 2 0 0"; "1 0 0"; ""; " 2 1.5 -0.25 # second"; "3 0 1"]%string.
Definition ele1 : list ascii := file ["1 3 0"; "1 1 2 3"]%string.
Example C59_example : show node1 ele1 = Ok ([[0 # 1; 0 # 1]; [3 # 2; -1 # 4]; [0 # 1; 1 # 1]]%Q, [[Some 0; Some 1; Some 2]]) /\
  show (file ["3 2"; "0 0 0"; "1 1.5 -0.25"; "2 0 1"]%string) (file ["1 3"; "0 0 1 2"]%string) = show node1 ele1.
Proof. split; vm_compute; reflexivity. Qed.
(** The files meet the definitions. *)
Ltac forall_in := repeat (apply Forall_cons; [cbn; tauto|]); apply Forall_nil.
Ltac num := split; [discriminate|split; [forall_in|split; [reflexivity|lia]]].
Lemma dec_literal s a b x : sign s -> Forall digit a -> Forall digit b -> a <> [] -> dec_conv (s ++ a ++ str "." ++ b) = (x, false) -> denotes dec_conv (s ++ a ++ str "." ++ b) x.
Proof.
  intros Hs Ha Hb Hn E. split; [|exact E]. exists s, a, (str "."), b, []. rewrite app_nil_r. repeat split; auto. intros F. apply app_eq_nil in F. destruct F. contradiction.
Qed.
Lemma int_literal a x : Forall digit a -> a <> [] -> dec_conv a = (x, false) -> denotes dec_conv a x.
Proof. intros Ha Hn E. split; [|exact E]. exists [], a, [], [], []. rewrite !app_nil_r. repeat split; auto. left. reflexivity. Qed.
Ltac sep_by x := exists x; eexists; split; [reflexivity|]; split; [first [forall_in|split; [discriminate|forall_in]]|].
Ltac sep := first [sep_by (@nil ascii)|sep_by (str " ")].
Lemma not_blank l : (exists w r, l = w ++ r /\ word w) \/ (exists w r, l = str " " ++ w ++ r /\ word w) -> ~ blank l.
Proof.
  intros H (s & r & E & Hs & Hr). assert (G : forall w q t, word w -> w ++ q = t ++ r -> Forall space t -> False).
  { intros w q t (c & w' & -> & V1 & V2) F Ht. destruct t as [|d t]; cbn in F.
    - destruct Hr as [-> | (r' & ->)]; [discriminate|]. injection F as -> _. discriminate.
    - inversion Ht as [|? ? Hd _]; subst. injection F as -> _. apply space_char in Hd. congruence. }
  destruct H as [(w & q & -> & Hw) | (w & q & -> & Hw)]; [apply (G w q s Hw E Hs)|].
  destruct s as [|d s]; [cbn in E; destruct Hr as [-> | (r' & ->)]; discriminate|]. injection E as _ E. inversion Hs; subst. apply (G w q s Hw E). assumption.
Qed.
Lemma word_dec c r : is_hash c = false -> isspace c = false -> word (c :: r).
Proof. intros. exists c, r. repeat split; auto. Qed.
Ltac nb := apply not_blank; first [left; eexists [_], _; split; [reflexivity|apply word_dec; reflexivity] | right; eexists [_], _; split; [reflexivity|apply word_dec; reflexivity]].
Example C59_files : node_file dec_conv [(qz 0, qz 0); (Qcanon.Q2Qc (15 # 10), Qcanon.Q2Qc (-25 # 100)); (qz 0, qz 1)] node1 /\ element_file [(0, 1, 2)] ele1 /\ refers_to 3 [(0, 1, 2)].
Proof.
  split; [|split].
  - exists (map str ["# corners"; "3 2 0 0"; "1 0 0"; ""; " 2 1.5 -0.25 # second"; "3 0 1"]%string), (str "3 2 0 0"), (map str ["1 0 0"; " 2 1.5 -0.25 # second"; "3 0 1"]%string), 1%Z.
    split; [split; [|right; reflexivity]|].
    { intros l H F. cbn [map] in H. repeat (destruct H as [<- | H]; [cbn in F; intuition discriminate|]). destruct H. }
    split. { apply content_blank; [exists [], (str "# corners"); repeat split; [constructor|right; eexists; reflexivity]|].
      apply content_line; [nb|]. apply content_line; [nb|]. apply content_blank; [exists [], []; repeat split; [constructor|left; reflexivity]|].
      apply content_line; [nb|]. apply content_line; [nb|]. apply content_nil. }
    split. { exists (str "3"), (str "2"), 3%Z. split; [sep; sep; left; cbn; tauto|]. split; [num|]. split; [lia|num]. }
    split; [right; reflexivity|]. split; [reflexivity|]. intros i p l Hp Hl.
    destruct i as [|[|[|i]]]; cbn [nth_error map] in Hp, Hl; [injection Hp as <-; injection Hl as <-..|destruct i; discriminate].
    + exists (str "1"), (str "0"), (str "0"). split; [sep; sep; sep; exact I|]. split; [num|]. split; (apply int_literal; [forall_in|discriminate|vm_compute; reflexivity]).
    + exists (str "2"), ([] ++ str "1" ++ str "." ++ str "5"), (str "-" ++ str "0" ++ str "." ++ str "25"). split; [exists (str " "); eexists; split; [reflexivity|]; split; [forall_in|]; sep; sep; left; cbn; tauto|]. split; [num|].
      split; (apply dec_literal; [first [left; reflexivity|right; right; reflexivity]|forall_in|forall_in|discriminate|vm_compute; reflexivity]).
    + exists (str "3"), (str "0"), (str "1"). split; [sep; sep; sep; exact I|]. split; [num|]. split; (apply int_literal; [forall_in|discriminate|vm_compute; reflexivity]).
  - exists (map str ["1 3 0"; "1 1 2 3"]%string), (str "1 3 0"), (map str ["1 1 2 3"]%string), 1%Z.
    split; [split; [|right; reflexivity]|].
    { intros l H F. cbn [map] in H. repeat (destruct H as [<- | H]; [cbn in F; intuition discriminate|]). destruct H. }
    split. { apply content_line; [nb|]. apply content_line; [nb|]. apply content_nil. }
    split. { exists (str "1"), (str "3"), 1%Z. split; [sep; sep; left; cbn; tauto|]. split; [num|]. split; [lia|num]. }
    split; [right; reflexivity|]. split; [reflexivity|]. intros i p l Hp Hl.
    destruct i as [|i]; cbn [nth_error map] in Hp, Hl; [injection Hp as <-; injection Hl as <-|destruct i; discriminate].
    exists (str "1"), (str "1"), (str "2"), (str "3"). split; [sep; sep; sep; sep; exact I|]. repeat (split; [num|]). num.
  - intros x y z [H | []]. injection H as <- <- <-. lia.
Qed.
(** Files with the errors above. *)
Example C59_bad_files :
  map (fun f => loadString dec_conv f ele1) [file ["0 2"]; file ["3 3"; "1 0 0"]; file ["3 # no dimension"]; file ["3 2"; "1 0 0"; "3 0 1"]; file ["3 2"; "2 0 0"]; file ["3 2"; "1 0 # y"]]%string =
    repeat (Throw NodeError) 6 /\
  map (fun g => loadString dec_conv node1 g) [file ["1 6"; "1 1 2 3"]; file ["1 3"; "2 1 2 3"]; file ["1 3"; "1 1 2 "]]%string = [Throw ElementError; Throw NodeError; Throw NodeError] /\
  map (fun g => loadString dec_conv node1 g) [file ["1 3"; "1 1 2 4"]; file ["1 3"; "1 0 1 2"]]%string = [UB; UB].
Proof. repeat split; vm_compute; reflexivity. Qed.
(** [BUG] Malformed lines that are accepted: a missing second coordinate is replaced by the first; text instead of a number reads as 0;
    a number followed by junk; a header announcing 3 vertices with 2 following; negative corner numbers wrap around. *)
Theorem C59_malformed_accepted_refuted :
  show (file ["1 2"; "1 0.5"]%string) [] = Ok ([[1 # 2; 1 # 2]]%Q, []) /\
  show (file ["1 2"; "1 x y"]%string) [] = Ok ([[0 # 1; 0 # 1]]%Q, []) /\
  show (file ["1 2"; "1x 2 3"]%string) [] = Ok ([[0 # 1; 1 # 1]]%Q, []) /\
  show (file ["1 2"; " abc"]%string) [] = Ok ([[0 # 1; 0 # 1]]%Q, []) /\
  show (file ["3 2"; "1 0 0"; "2 0 1"]%string) [] = Ok ([[0 # 1; 0 # 1]; [0 # 1; 1 # 1]]%Q, []) /\
  show node1 (file ["1 3"; "1 1 2 -18446744073709551613"]%string) = show node1 ele1 /\
  show node1 (file ["1 3"; "1 1 2"]%string) = Ok ([[0 # 1; 0 # 1]; [3 # 2; -1 # 4]; [0 # 1; 1 # 1]]%Q, [[Some 0; Some 1; Some 1]]).
Proof. repeat split; vm_compute; reflexivity. Qed.
(** [BUG] A first word that is not a number, or is the only word, at the very beginning of a line: the iterator is moved before the
    beginning of the text. *)
Theorem C59_before_the_line_refuted :
  map (fun f => loadString dec_conv f []) [file ["abc"]; file ["5"]; file ["1 2"; "1"]; file ["1 2"; "x 0 0"]]%string = [UB; UB; UB; UB].
Proof. vm_compute. reflexivity. Qed.
