(** What a deformatter/reformatter pair promises.  Independent of the scanners. *)
From Verif Require Import Model.Base Model.Format.

(** the character entities of a format: what is written in the document, and what it stands for *)
Definition entities (F : format) : list (str * str) := flat_map snd (f_repl F).
(** a document reads as a text: each entity stands for its character, everything else for itself *)
Inductive Reads (F : format) : str -> str -> Prop :=
| Rd_nil : Reads F [] []
| Rd_char c x v : Reads F x v -> Reads F (c :: x) (c :: v)
| Rd_ent k w x v : In (k, w) (entities F) -> Reads F x v -> Reads F (k ++ x) (w ++ v).
(** two documents that differ at most in how characters are spelled *)
Definition SameText (F : format) (x y : str) : Prop := exists v, Reads F x v /\ Reads F y v.

(** a regular expression that matches whole characters: what it matches is valid text, and where it matches in the
    middle of a character it also matches at the beginning of that character *)
Definition whole (m : matcher) : Prop :=
  (forall s n, valid s = true -> m s = Some n -> 0 < n <= length s /\ valid (firstn n s) = true) /\
  (forall p q r, valid (p ++ q) = true -> valid p = false -> m (q ++ r) <> None -> m ((p ++ q) ++ r) <> None).
(** what every shipped format description but the two rtf-format-cp125x.xml satisfies *)
Record good_format (F : format) : Prop := {
  g_lb : is_esc F cLB = true; g_rb : is_esc F cRB = true; g_bs : is_esc F cBS = true;
  g_nl : is_esc F cNL = true \/ f_space F cNL = true;
  g_ascii : forall c, is_esc F c = true \/ f_space F c = true -> (c < 128)%N;
  g_group : f_grouped F = true;
  g_rule : forall r, In r (f_rules F) -> whole (r_m r) /\ forall m, r_end r = Some m -> whole m;
  g_repl : forall m t, In (m, t) (f_repl F) -> whole m;
  g_target : forall k w c, In (k, w) (entities F) -> In c w -> c <> cLB /\ c <> cRB /\ c <> cBS /\ c <> cNUL;
  g_prefer : forall w k, In (w, k) (f_prefer F) -> In (k, w) (entities F) /\ ~ In cNUL k }.

(** a document: UTF-8 without NUL *)
Definition document (s : str) : Prop := valid s = true /\ ~ In cNUL s.
(** the names tmpnam gives: all different, none of them empty or with a bracket *)
Definition good_names (tmpname : nat -> str) : Prop :=
  (forall i j, tmpname i = tmpname j -> i = j) /\ (forall i, tmpname i <> [] /\ ~ In cRB (tmpname i)).

(** ** The stream a deformatter writes *)
(** text in which every reserved character is escaped *)
Inductive Body (F : format) : str -> Prop :=
| B_nil : Body F []
| B_char c b : is_esc F c = false -> Body F b -> Body F (c :: b)
| B_esc c b : Body F b -> Body F (cBS :: c :: b).
(** text, blanks [...] of such text that do not begin with an at sign, and names of files [@name] *)
Inductive WellFormed (F : format) (tmpname : nat -> str) : str -> Prop :=
| W_nil : WellFormed F tmpname []
| W_char c r : is_esc F c = false -> WellFormed F tmpname r -> WellFormed F tmpname (c :: r)
| W_esc c r : WellFormed F tmpname r -> WellFormed F tmpname (cBS :: c :: r)
| W_blank b r : Body F b -> hd_error b <> Some cAT -> WellFormed F tmpname r -> WellFormed F tmpname (cLB :: b ++ cRB :: r)
| W_file n r : WellFormed F tmpname r -> WellFormed F tmpname (cLB :: cAT :: tmpname n ++ cRB :: r).
(** the format reserves ASCII characters only, and no entity stands for a reserved one *)
Definition reserves (F : format) : Prop :=
  (forall c, is_esc F c = true -> (c < 128)%N) /\ is_esc F cAT = true /\ is_esc F cSP = false /\
  (forall k w c, In (k, w) (entities F) -> In c w -> is_esc F c = false).
