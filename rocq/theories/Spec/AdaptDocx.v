(** Specification for apertium-adapt-docx, without reference to how it works. *)
From Coq Require Import String.
From Verif Require Import Model.Base Model.AdaptDocx.
Open Scope nat_scope.

Section S.
Variable alpha : char -> bool.

(** Position p of the text lies inside a word: between two letters, in a hyphenated pair of letters, or in l·l. *)
Definition ell (c : char) : Prop := c = 76%N \/ c = 108%N.
Inductive joined : str -> nat -> Prop :=
| J_letters a x y b : alpha x = true -> alpha y = true -> joined (a ++ [x; y] ++ b) (length a + 1)
| J_hyphen1 a x y b : alpha x = true -> alpha y = true -> joined (a ++ [x; 45%N; y] ++ b) (length a + 1)
| J_hyphen2 a x y b : alpha x = true -> alpha y = true -> joined (a ++ [x; 45%N; y] ++ b) (length a + 2)
| J_ell1 a x y b : ell x -> ell y -> joined (a ++ [x; 183%N; y] ++ b) (length a + 1)
| J_ell2 a x y b : ell x -> ell y -> joined (a ++ [x; 183%N; y] ++ b) (length a + 2).
(** Position p lies before the last character of the text, a hyphen after a letter or a middle dot after an l. *)
Inductive dangling : str -> nat -> Prop :=
| D_hyphen a x : alpha x = true -> dangling (a ++ [x; 45%N]) (length a + 1)
| D_dot a x : ell x -> dangling (a ++ [x; 183%N]) (length a + 1).
Definition stuck (t : str) (p : nat) : Prop := joined t p \/ dangling t p.
(** q is the first position from p on at which the text may be cut. *)
Definition first_cut (t : str) (p q : nat) : Prop :=
  p <= q /\ ~ stuck t q /\ forall r, p <= r < q -> stuck t r.
(** Where run number k of the list ends in the text of them all. *)
Definition ends (ts : list str) (k : nat) : nat := length (concat (firstn k ts)).

(** ** Documents *)
(** The text a reader sees: that of every t element, without the spaces around it unless they are preserved. *)
Fixpoint shown (i : bool) (n : node) : str :=
  match n with
  | Elem m sp ks => if str_eqb m (u "t"%string) then flat_map (piece (eff i sp)) ks else flat_map (shown (eff i sp)) ks
  | _ => []
  end.
Definition markup (n : node) : Prop := match n with Other _ => True | _ => False end.      (* a comment or the like *)
(** A child of a paragraph that shows nothing, or a run whose only text is that of one t element, which has at most one piece of text and then only comments. *)
Inductive plain_kid (i : bool) : node -> Prop :=
| K_nothing n : run_text i n = None -> shown i n = [] -> plain_kid i n
| K_run sp a spt tk b :
    Forall (fun n => is_el "t"%string n = false /\ shown (eff i sp) n = []) (a ++ b) -> Forall markup (tl tk) ->
    plain_kid i (Elem (u "r"%string) sp (a ++ Elem (u "t"%string) spt tk :: b)).
(** Before the first run with text and after the last one anything may stand. *)
Definition plain_para (i : bool) (ks : list node) : Prop :=
  exists a b c, ks = a ++ b ++ c /\ Forall (fun n => run_text i n = None) a /\ Forall (plain_kid i) b /\ Forall (fun n => run_text i n = None) c.
Inductive tidy (i : bool) : node -> Prop :=
| T_text s : tidy i (Text s)
| T_other s : tidy i (Other s)
| T_elem m sp ks : Forall (tidy (eff i sp)) ks -> (m = u "p"%string -> plain_para (eff i sp) ks) -> tidy i (Elem m sp ks).

(** What may differ: the text and the xml:space of a t element, and runs taken out of a paragraph. *)
Inductive adapted : node -> node -> Prop :=
| A_same n : adapted n n
| A_text sp c ks sp' s : adapted (Elem (u "t"%string) sp (c :: ks)) (Elem (u "t"%string) sp' (Text s :: ks))
| A_space sp ks sp' : adapted (Elem (u "t"%string) sp ks) (Elem (u "t"%string) sp' ks)
| A_kid m sp a n n' b : adapted n n' -> adapted (Elem m sp (a ++ n :: b)) (Elem m sp (a ++ n' :: b))
| A_drop sp a spr ks b : adapted (Elem (u "p"%string) sp (a ++ Elem (u "r"%string) spr ks :: b)) (Elem (u "p"%string) sp (a ++ b))
| A_trans n1 n2 n3 : adapted n1 n2 -> adapted n2 n3 -> adapted n1 n3.

(** The paragraphs of a document, with their children and whether spaces are preserved in them. *)
Inductive para_in (i : bool) : node -> bool -> list node -> Prop :=
| P_here sp ks : para_in i (Elem (u "p"%string) sp ks) (eff i sp) ks
| P_in m sp ks k j l : In k ks -> para_in (eff i sp) k j l -> para_in i (Elem m sp ks) j l.
End S.

(** Printing: runs of line ends become one space. *)
Inductive one_line : str -> str -> Prop :=
| O_nil : one_line [] []
| O_char c s r : c <> 10%N -> c <> 13%N -> one_line s r -> one_line (c :: s) (c :: r)
| O_nls w s r : w <> [] -> Forall (fun c => c = 10%N \/ c = 13%N) w -> (forall c s', s = c :: s' -> c <> 10%N /\ c <> 13%N) ->
    one_line s r -> one_line (w ++ s) (32%N :: r).
