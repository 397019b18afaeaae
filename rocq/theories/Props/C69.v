(** C69: apertium-adapt-docx moves the boundaries of text runs to the ends of words and keeps the text. *)
From Coq Require Import String Lia.
From Verif Require Import Model.Base Model.AdaptDocx Spec.AdaptDocx Proofs.Base Proofs.AdaptDocx.
Open Scope nat_scope.

(** The boundary is the first position from the given one on at which the text may be cut. *)
Theorem C69_boundary (alpha : char -> bool) : alpha 0%N = false -> forall t p, first_cut alpha t p (findBoundary alpha t p).
Proof. intros A t p. now apply fb_first. Qed.
Print Assumptions C69_boundary.

(** The runs of a paragraph: as many as before, with the same text together, and each ends at the first possible cut from where it ended before. *)
Theorem C69_runs (alpha : char -> bool) : alpha 0%N = false -> forall ts,
  let out := match adjust alpha ts with Some l => l | None => ts end in
  concat out = concat ts /\ length out = length ts /\ forall k, k <= length ts -> first_cut alpha (concat ts) (ends ts k) (ends out k).
Proof.
  intros A ts. destruct (adjust_spec alpha A ts) as (B & C & D). cbv zeta in *. split; [exact B|]. split; [exact C|].
  intros k K. rewrite (D k K). now apply fb_first.
Qed.
Print Assumptions C69_runs.

(** Whatever the document: only the text and xml:space of t elements may differ, and runs may be missing from paragraphs. *)
Theorem C69_only (alpha : char -> bool) : alpha 0%N = false -> forall root, adapted root (process alpha root).
Proof. intros A root. now apply proc_adapted. Qed.
Print Assumptions C69_only.

(** For a tidy document the text shown is the same. *)
Theorem C69_text_partial (alpha : char -> bool) : alpha 0%N = false -> forall root, tidy false root -> shown false (process alpha root) = shown false root.
Proof. intros A root. now apply shown_proc. Qed.
Print Assumptions C69_text_partial.

(** ... no run of any paragraph ends inside a word ... *)
Theorem C69_legal_partial (alpha : char -> bool) : alpha 0%N = false -> forall root, tidy false root ->
  forall i kids, para_in false (process alpha root) i kids -> forall k, ~ joined alpha (concat (texts i kids)) (ends (texts i kids) k).
Proof. intros A root T i kids P k J. exact (proc_legal alpha A root false T i kids P k (or_introl J)). Qed.
Print Assumptions C69_legal_partial.

(** ... and adapting it once more changes nothing. *)
Theorem C69_idempotent_partial (alpha : char -> bool) : alpha 0%N = false -> forall root, tidy false root -> process alpha (process alpha root) = process alpha root.
Proof. intros A root T. now apply proc_idem. Qed.
Print Assumptions C69_idempotent_partial.

(** The serialised document, which has a first line and ends with a line end, is printed on one line. *)
Theorem C69_print name h w c s : Forall (fun x => x <> 10%N /\ x <> 13%N) h -> w <> [] -> Forall (fun x => x = 10%N \/ x = 13%N) w ->
  c <> 10%N -> c <> 13%N ->
  exists r, one_line (h ++ w ++ c :: s ++ [10%N]) r /\
    print name (h ++ w ++ c :: s ++ [10%N]) = (match name with Some f => u "<file name="%string ++ [34%N] ++ f ++ [34%N] ++ u "/> "%string | None => [] end) ++ r ++ [10%N].
Proof.
  intros H NW W C1 C2. unfold print, print_line.
  assert (U : until_nl (h ++ w ++ c :: s ++ [10%N]) = (h, w ++ c :: s ++ [10%N])).
  { clear - H NW W. induction h as [|x h IH]; cbn [app].
    - destruct w as [|y w]; [congruence|]. cbn. inversion W as [|? ? Hy _]; subst. now rewrite (proj2 (nl_spec y) Hy).
    - inversion H as [|? ? Hx Hh]; subst. cbn. destruct (nl x) eqn:E; [apply nl_spec in E; tauto|]. rewrite (IH Hh). reflexivity. }
  rewrite U.
  assert (SK : skip_nl (w ++ c :: s ++ [10%N]) = c :: s ++ [10%N]).
  { clear - W C1 C2. induction W as [|y w Hy _ IH]; cbn; [|now rewrite (proj2 (nl_spec y) Hy)].
    destruct (nl c) eqn:E; [apply nl_spec in E; tauto|reflexivity]. }
  destruct (line_spec _ _ _ U) as (w' & _ & _ & _ & O); [destruct w; discriminate|]. rewrite SK in *.
  destruct (print_rest_spec (S (length (c :: s ++ [10%N]))) (c :: s ++ [10%N])) as (r & R1 & R2).
  - lia.
  - discriminate.
  - change (c :: s ++ [10%N]) with ((c :: s) ++ [10%N]). rewrite last_app1. reflexivity.
  - exists ((h ++ [cSP]) ++ r). split; [now apply O|]. f_equal. etransitivity; [|symmetry; rewrite <- !app_assoc; reflexivity]. rewrite <- R1. cbn beta iota. rewrite <- !app_assoc. reflexivity.
Qed.
Print Assumptions C69_print.

(** ** Instances *)
Definition latin (c : char) : bool := ((65 <=? c) && (c <=? 90) || (97 <=? c) && (c <=? 122))%N.
Definition T (s : string) : node := Elem (u "t"%string) None [Text (u s)].
Definition TP (s : string) : node := Elem (u "t"%string) (Some true) [Text (u s)].
Definition R (l : list node) : node := Elem (u "r"%string) None l.
Definition P (l : list node) : node := Elem (u "p"%string) None l.
Definition B (s : string) : node := Elem (u s) None [].
Definition doc1 : node := Elem (u "body"%string) None
  [P [B "pPr"; R [B "b"; T "Hel"]; R [T "lo"]; B "bookmark"; R [B "i"; TP " wor"]; R [T "ld"]]].
Example C69_doc_tidy : tidy false doc1.
Proof.
  assert (BE : forall s i, u s <> u "p"%string -> tidy i (B s)) by (intros s i N; apply T_elem; [constructor|intros E; contradiction]).
  assert (TE : forall i sp s, tidy i (Elem (u "t"%string) sp [Text s])) by (intros; apply T_elem; [repeat constructor|discriminate]).
  unfold doc1. apply T_elem; [|discriminate]. apply Forall_cons; [|constructor].
  apply T_elem.
  - repeat (apply Forall_cons; [first [apply BE; discriminate | apply T_elem; [|discriminate]; repeat (apply Forall_cons; [first [apply BE; discriminate|apply TE]|]); constructor]|]). constructor.
  - intros _. exists [], [B "pPr"; R [B "b"; T "Hel"]; R [T "lo"]; B "bookmark"; R [B "i"; TP " wor"]; R [T "ld"]], []. split; [reflexivity|]. split; [constructor|]. split; [|constructor].
    apply Forall_cons; [apply K_nothing; reflexivity|].
    apply Forall_cons; [apply (K_run _ None [B "b"%string] None [Text (u "Hel"%string)] []); repeat constructor|].
    apply Forall_cons; [apply (K_run _ None [] None [Text (u "lo"%string)] []); repeat constructor|].
    apply Forall_cons; [apply K_nothing; reflexivity|].
    apply Forall_cons; [apply (K_run _ None [B "i"%string] (Some true) [Text (u " wor"%string)] []); repeat constructor|].
    apply Forall_cons; [apply (K_run _ None [] None [Text (u "ld"%string)] []); repeat constructor|]. constructor.
Qed.
Example C69_doc_run : process latin doc1 = Elem (u "body"%string) None
  [P [B "pPr"; R [B "b"; Elem (u "t"%string) (Some false) [Text (u "Hello"%string)]]; B "bookmark"; R [B "i"; Elem (u "t"%string) (Some true) [Text (u " world"%string)]]]].
Proof. vm_compute. reflexivity. Qed.
Example C69_boundary_ell : findBoundary latin [99; 111; 108; 183; 108; 111; 32; 120]%N 2 = 6 /\ findBoundary latin (u "vice-versa, x"%string) 4 = 10 /\ findBoundary latin (u "a- b"%string) 1 = 1.
Proof. vm_compute. auto. Qed.
Example C69_print_run : print (Some (u "f"%string)) (u "ab"%string ++ [10%N] ++ u "cd"%string ++ [13%N; 10%N] ++ u "e"%string ++ [10%N]) = u "<file name="%string ++ [34%N] ++ u "f"%string ++ [34%N] ++ u "/> ab cd e "%string ++ [10%N].
Proof. vm_compute. reflexivity. Qed.

(** ** Documents that are not tidy *)
(** A link between two runs: its text is overtaken. *)
Definition link : node := P [R [T "foo"]; Elem (u "hyperlink"%string) None [R [T "LINK"]]; R [T "bar x"]].
Theorem C69_link_refuted : exists root, shown false (process latin root) <> shown false root.
Proof. exists link. vm_compute. discriminate. Qed.
Print Assumptions C69_link_refuted.
Example C69_link_run : shown false link = u "fooLINKbar x"%string /\ shown false (process latin link) = u "foobarLINK x"%string.
Proof. vm_compute. auto. Qed.
(** A comment inside the text: the text after it is there twice. *)
Definition comment : node := P [R [Elem (u "t"%string) None [Text (u "ab"%string); Other (u "c"%string); Text (u "cd"%string)]]; R [T "ef"]].
Example C69_comment_refuted : shown false comment = u "abcdef"%string /\ shown false (process latin comment) = u "abcdefcd"%string.
Proof. vm_compute. auto. Qed.
(** A run whose text moves to the one before is removed together with its picture. *)
Definition picture : node := P [R [T "ab"]; R [T "cd"; B "drawing"]].
Example C69_picture_refuted : process latin picture = P [R [Elem (u "t"%string) (Some false) [Text (u "abcd"%string)]]].
Proof. vm_compute. reflexivity. Qed.
(** A line break at the beginning of a run: the text after it moves before it. *)
Definition br : node := P [R [T "one"]; R [B "br"; T "two three"]].
Example C69_break_refuted : process latin br =
  P [R [Elem (u "t"%string) (Some false) [Text (u "onetwo"%string)]]; R [B "br"; Elem (u "t"%string) (Some true) [Text (u " three"%string)]]].
Proof. vm_compute. reflexivity. Qed.
(** A hyphen at the very end of the paragraph is moved although it may be cut off. *)
Theorem C69_hyphen_refuted : exists t p, ~ joined latin t p /\ findBoundary latin t p <> p.
Proof.
  exists (u "a-"%string), 1. split; [|vm_compute; discriminate]. intros H.
  remember (u "a-"%string) as t eqn:E. remember 1 as p eqn:Ep. vm_compute in E.
  destruct H as [a x y b X Y|a x y b X Y|a x y b X Y|a x y b X Y|a x y b X Y]; destruct a as [|a0 [|a1 [|a2 a]]]; try discriminate.
  injection E as -> -> ->. discriminate.
Qed.
Print Assumptions C69_hyphen_refuted.
