(** C50: apertium-extract-caps from text to text. *)
From Coq Require Import String.
From Verif Require Import Model.Base Model.Caps Spec.MorphoStream Spec.Caps Proofs.Base Proofs.Caps.

(** For every sequence of documents of units with at least one reading: every unit is written once, in order, with the
    blank before it, its first reading (and its surface form if asked for), and a word-bound blank that also notes the
    case of the surface form and of the reading up to the tags of its last part; every NUL is answered by a NUL. *)
Theorem C50_extract_partial : forall getcase merge_wblanks keep_surf d ds, Forall wf_edoc (d :: ds) ->
  exists s, extract getcase merge_wblanks keep_surf (edocs_text d ds) = Some s /\ edocs_out getcase merge_wblanks keep_surf d ds s.
Proof. intros. apply extract_docs; auto. Qed.
Print Assumptions C50_extract_partial.

(** ** concrete case *)
Definition up1 (c : char) : bool := ((65 <=? c) && (c <=? 90))%N.
Definition gc (s : str) : str := match s with c :: d :: _ => if up1 c then (if up1 (last s 0%N) then u "AA" else u "Aa") else u "aa" | [c] => if up1 c then u "Aa" else u "aa" | [] => u "aa" end%string.
Definition mw (a b : str) : str := match a with [] => b | _ => firstn (length a - 2) a ++ u "; "%string ++ skipn 2 b end.
Definition ew (b wb s : string) (l : list string) := mkew (u b) (u wb) (u s) (map u l).
Definition ex1 := mked [ew "" "" "Take" ["take<vb>+It<prn>"; "x"]; ew " [<a>]" "[[t:i]]" "\/A" ["b"]]%string (u "."%string).
Definition ex2 := mked [ew "" "" "B" ["B<n>"]]%string [].
Example ex_wf : Forall wf_edoc [ex1; ex2].
Proof.
  repeat match goal with
  | |- Forall _ [] => constructor
  | |- Forall _ (_ :: _) => constructor
  | |- Forall _ _ => progress cbn
  | |- wf_edoc _ => split
  | |- wf_eword _ => split
  | |- _ /\ _ => split
  | |- wf_blankw _ => first [apply W_nil|apply (W_super (u "<a>"%string) []); [|intros r K; vm_compute in K; discriminate|]|apply W_char; [discriminate..|]]
  | |- plain _ _ [] => apply P_nil
  | |- plain _ _ (92%N :: _) => apply P_esc; [intros K; exact K|]
  | |- plain _ _ (_ :: _) => apply P_char; [discriminate|intros K; unfold stopE in K; decompose [or] K; discriminate|]
  | |- plain _ _ _ => progress cbn
  | |- _ <> [] => discriminate
  | |- _ \/ _ => first [left; reflexivity|right; exists (u "t:i"%string); split; [reflexivity|]; repeat (apply P_char; [discriminate..|]); apply P_nil]
  end.
Qed.
Example ex_out : extract gc mw true (edocs_text ex1 [ex2]) =
  Some (u "[[c:Aa/aa]]^Take/take<vb>+It<prn>$ [<a>][[t:i; c:aa/aa]]^\/A/b$."%string ++ cNUL :: u "[[c:Aa/Aa]]^B/B<n>$"%string).
Proof. vm_compute. reflexivity. Qed.

(** FINDING: a unit without readings loses its text. *)
Theorem C50_no_reading_refuted : forall getcase merge_wblanks, exists wb, extract getcase merge_wblanks false (u "^abc$"%string) = Some (wb ++ u "^$"%string).
Proof.
  intros. exists (merge_wblanks [] (u "[[c:"%string ++ getcase (u "abc"%string) ++ cSLASH :: getcase [] ++ u "]]"%string)).
  unfold extract. cbn [length extract_loop]. vm_compute. apply (f_equal Some). apply app_nil_r.
Qed.
Print Assumptions C50_no_reading_refuted.
(** FINDING: the case noted for a reading of several parts is that of the text from the first part on, tags included. *)
Theorem C50_parts_case_refuted : exists wb, extract (fun s => s) (fun _ b => b) false (u "^x/ab<n>+cd<v>$"%string) = Some (wb ++ u "ab<n>+cd]]^ab<n>+cd<v>$"%string).
Proof. eexists (u "[[c:x/"%string). vm_compute. reflexivity. Qed.
Print Assumptions C50_parts_case_refuted.
