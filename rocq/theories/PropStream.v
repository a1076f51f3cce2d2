(** Property C70: what operator<< writes for vectors and matrices.  [fmt x] is the text the stream writes for the
    number x; [str "..."] is a text; [words t] are the pieces of t between blanks; [bars b rows] joins the rows with b. *)
From Coq Require Import String Ascii List Arith Bool ZArith.
From Verif Require Import Base Num NumInst Spec VectorModel SparseModel SparseSpec DenseModel DenseSpec ExampleBase StreamModel StreamSpec StreamProofs.
Import ListNotations.
Local Open Scope list_scope.
Local Open Scope nat_scope.
Open Scope res_scope.

(** ** C70 *)
(** A vector: "[ ", every element followed by a blank, "]". *)
Theorem C70_vector (N : Num) : forall (fmt : N -> list ascii) (v : list N), exists t, out_vector fmt v = Ok t /\
  t = str "[ " ++ flat_map (fun x => fmt x ++ str " ") v ++ str "]" /\
  ((forall x, no_blank (fmt x)) -> words t = str "[" :: map fmt v ++ [str "]"]).
Proof.
  intros fmt v. exists (vec_text fmt v). split; [apply out_vector_ok|]. split; [reflexivity|]. intros H. now apply vec_words.
Qed.
(** A dense matrix: the rows in order, "| " between two rows. *)
Theorem C70_dense (N : Num) : forall (fmt : N -> list ascii) (m : dmat N) d1 d2 a, dreads m d1 d2 a -> exists t, out_dense fmt m = Ok t /\
  let ws := str "[" :: bars (str "|") (map (fun i => map (fun j => fmt (a i j)) (seq 0 d2)) (seq 0 d1)) in
  t = flat_map (fun w => w ++ str " ") ws ++ str "]" /\
  ((forall x, no_blank (fmt x)) -> words t = ws ++ [str "]"]).
Proof.
  intros fmt m d1 d2 a H. exists (dense_text fmt d1 d2 a). split; [now apply out_dense_ok|]. cbn zeta.
  assert (E : map (fun i => map (fun j => fmt (a i j)) (seq 0 d2)) (seq 0 d1) = map (fun i => map fmt (table_row d2 a i)) (seq 0 d1)).
  { apply map_ext. intros i. unfold table_row. now rewrite map_map. }
  rewrite E. split; [reflexivity|]. intros Hf. now apply dense_words.
Qed.
(** A sparse matrix: exactly the entries different from zero, row by row, as "(row, column; value) ". *)
Theorem C70_sparse (N : Num) (HZ : ZeroLaws N) : forall (fmt : N -> list ascii) (m : smat N) d1 d2 a, built m -> reads m d1 d2 a ->
  exists t, out_sparse fmt m = Ok t /\
  t = str "[ " ++ flat_map (fun p => str "(" ++ dec (fst p) ++ str ", " ++ dec (snd p) ++ str "; " ++ fmt (a (fst p) (snd p)) ++ str ") ") (nonzeros d1 d2 a) ++ str "]".
Proof.
  intros fmt m d1 d2 a Hb Hr. exists (sparse_text fmt d1 d2 a). split; [now apply out_sparse_ok|].
  unfold sparse_text, line. change (flat_map (fun w => w ++ [" "%char]) (str "[" :: ?l)) with (str "[ " ++ flat_map (fun w => w ++ [" "%char]) l).
  rewrite <- app_assoc. do 2 f_equal. induction (nonzeros d1 d2 a) as [|p l IH]; [reflexivity|]. cbn [flat_map]. rewrite flat_map_app, <- IH.
  unfold entry_words. cbn [flat_map]. rewrite <- !app_assoc. reflexivity.
Qed.
(** When the numbers are written without blanks the text determines what was printed: size and written numbers of a
    vector, ... *)
Theorem C70_vector_unambiguous (N : Num) : forall (fmt : N -> list ascii), (forall x, no_blank (fmt x)) -> forall (v w : list N) t,
  out_vector fmt v = Ok t -> out_vector fmt w = Ok t -> map fmt v = map fmt w.
Proof. exact (@vec_unambiguous N). Qed.
(** ... shape and written numbers of a dense matrix, ... *)
Theorem C70_dense_unambiguous (N : Num) : forall (fmt : N -> list ascii), (forall x, no_blank (fmt x)) -> (forall x, fmt x <> str "|") ->
  forall (A B : dmat N) d1 d2 a e1 e2 b t, dreads A d1 d2 a -> dreads B e1 e2 b -> 0 < d1 -> 0 < d2 -> 0 < e1 -> 0 < e2 ->
  out_dense fmt A = Ok t -> out_dense fmt B = Ok t ->
  d1 = e1 /\ d2 = e2 /\ forall i j, i < d1 -> j < d2 -> fmt (a i j) = fmt (b i j).
Proof. exact (@dense_unambiguous N). Qed.
(** ... positions and written numbers of the entries of a sparse matrix. *)
Theorem C70_sparse_unambiguous (N : Num) : forall (fmt : N -> list ascii), (forall x, no_blank (fmt x)) -> ZeroLaws N ->
  forall (A B : smat N) d1 d2 a e1 e2 b t, built A -> reads A d1 d2 a -> built B -> reads B e1 e2 b ->
  out_sparse fmt A = Ok t -> out_sparse fmt B = Ok t ->
  map (fun p => (p, fmt (a (fst p) (snd p)))) (nonzeros d1 d2 a) = map (fun p => (p, fmt (b (fst p) (snd p)))) (nonzeros e1 e2 b).
Proof. exact (@sparse_unambiguous N). Qed.
(** The number of rows and columns of a sparse matrix is not written. *)
Definition ex70_fmt (x : NumF64) : list ascii := if neqb x (fz 0%Z) then str "0" else if neqb x (fz 1%Z) then str "1" else str "-2.5".
Example C70_example :
  out_vector ex70_fmt [fz 1%Z; fz 0%Z; fz 5%Z] = Ok (str "[ 1 0 -2.5 ]") /\ out_vector ex70_fmt [] = Ok (str "[ ]") /\
  (let* m := d_of_list [[fz 1%Z; fz 0%Z]; [fz 0%Z; fz 5%Z]; [fz 1%Z; fz 1%Z]] in out_dense ex70_fmt m) = Ok (str "[ 1 0 | 0 -2.5 | 1 1 ]") /\
  (let* m := s_new 12 11 in let* m := s_set m 10 2 (fz 1%Z) in let* m := s_set m 0 10 (fz 5%Z) in out_sparse ex70_fmt m)
    = Ok (str "[ (0, 10; -2.5) (10, 2; 1) ]") /\
  (let* m := s_new 1 1 in out_sparse ex70_fmt m) = (let* m := s_new 2 2 in out_sparse ex70_fmt m).
Proof. repeat split; vm_compute; reflexivity. Qed.
Example C70_example_hypotheses : (forall x, no_blank (ex70_fmt x)) /\ (forall x, ex70_fmt x <> str "|") /\ dec 120 = str "120".
Proof.
  split; [|split; [|reflexivity]]; intros x; unfold ex70_fmt; destruct (neqb x (fz 0)), (neqb x (fz 1)); cbv; intuition discriminate.
Qed.
