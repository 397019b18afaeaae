(** C30: interchunk changes nothing where no rule matches. *)
From Coq Require Import String ZArith.
From Verif Require Import Model.Base Proofs.Base Model.ChunkLoop Model.ChunkTokens Spec.ChunkLoop Spec.ChunkTokens Proofs.TransferMult Proofs.ChunkLoop Proofs.ChunkTokens Proofs.Patterns Props.C31.

Definition unmatched (accepts : nat -> list item -> Prop) (items : list item) : Prop :=
  forall pre m rest r, items = pre ++ m ++ rest -> ~ accepts r m.
Definition echo (w : str) : str := cCARET :: w ++ [cDOL].          (* interchunk.cc:505 *)
Definition item_text (i : item) : str := match i with W w => cCARET :: w ++ [cDOL] | B b => b end.

Lemma run_unmatched accepts G act items : unmatched accepts items -> forall g last, Run accepts G act echo [] g items last (flat_map item_text items ++ last) g.
Proof.
  induction items as [|i items IH]; intros H g last; [apply run_end|].
  assert (H' : unmatched accepts items) by (intros pre m rest r E; apply (H (i :: pre) m rest r); cbn; f_equal; exact E).
  destruct i as [w|b]; cbn [flat_map item_text]; rewrite <- app_assoc.
  - apply (run_default accepts G act echo [] g w); [|apply IH, H']. intros m rest r E A. destruct (H [] m rest r E A).
  - apply run_blank, IH, H'.
Qed.
Lemma items_text l last : flat_map item_text (stream_items l) ++ last = stream l last.
Proof. induction l as [|[b w] l IH]; [reflexivity|]. cbn [stream_items flat_map item_text app fst snd stream]. rewrite <- IH. cbn [fst snd]. appeq. Qed.

(** one document, from text to text; whatever the rules would do (nothing is asked of [act]) *)
Theorem C30_unmatched_text_unchanged : forall MS i w b e rs plen nrules l last,
  good MS i w b e rs unit (fun _ _ _ _ => ([], [], (-1)%Z, tt)) plen nrules ->
  Forall (fun bw => BText (fst bw) /\ ChunkText (snd bw)) l -> BText last ->
  unmatched (laccepts MS i w b rs) (stream_items l) ->
  forall G (act : nat -> G -> list str -> list str -> str * list str * Z * G) g,
  exists toks fuel st, klex false false KTop (stream l last) [] = Some (toks, None) /\
    (lloop true MS i w b e rs G act echo fuel toks (lstart MS i G [] g) = Some (stream l last, st) /\ (l_g MS G st) = g).
Proof.
  intros MS i w b e rs plen nrules l last HG Hl HL HU G act g. destruct (C31_interchunk_tokens false l last Hl HL) as [HT Hsep].
  eexists. assert (HR := run_unmatched _ (G * bool) (act_flag G) _ HU (g, false) last). rewrite items_text in HR.
  assert (HG' : good MS i w b e rs (G * bool) (act_flag G) plen nrules) by (destruct HG; constructor; auto).
  assert (HS : shifts_whole (act_flag G) plen) by (intros r g0 ws bs o lf z g' E Hz; injection E as <- <- <- <-; lia).
  apply (C31_longest_match_partial true MS i w b e rs (G * bool) (act_flag G) echo plen nrules (stream_items l) last (g, false) HG' HS Hsep) in HR as (fuel & st & E & Hg).
  apply (loop_unused true MS i w b e rs G act echo) in E; [|unfold flagged; rewrite Hg; reflexivity].
  exists fuel, (unflag MS G st). split; [exact HT|]. split; [exact E|]. cbn. rewrite Hg. reflexivity.
Qed.
Print Assumptions C30_unmatched_text_unchanged.
(** more generally: everything outside the matches of rules is unchanged -- each maximal unmatched part in front of a document
    comes out as it was *)
Theorem C30_prefix_unchanged : forall accepts G act g items rest last out g',
  (forall pre m r more, items ++ rest = pre ++ m ++ more -> length pre < length items -> ~ accepts r m) ->
  Run accepts G act echo [] g rest last out g' -> Run accepts G act echo [] g (items ++ rest) last (flat_map item_text items ++ out) g'.
Proof.
  induction items as [|i items IH]; intros rest last out g' H HR; [exact HR|].
  assert (IH' : Run accepts G act echo [] g (items ++ rest) last (flat_map item_text items ++ out) g').
  { apply IH; [|exact HR]. intros pre m r more E L. apply (H (i :: pre) m r more); [cbn; f_equal; exact E|cbn; lia]. }
  destruct i as [w|b]; cbn [flat_map item_text app]; rewrite <- app_assoc.
  - apply (run_default accepts G act echo [] g w); [|exact IH']. intros m more r E A. destruct (H [] m r more E ltac:(cbn; lia) A).
  - apply run_blank, IH'.
Qed.
Print Assumptions C30_prefix_unchanged.

(** Case: chunks with content, superblank, escaped characters; the rules are those of C31's case *)
Definition extext : string := "[<p>]^adj_nom<SN>{^gat<n>$ ^x$}$ \^ ^c{a}b}$, [</p>]".
Example C30_case : match klex false false KTop (u extext) [] with
  | Some (t, _) => match lloop true PM (pm_init exps) pm_word pm_blank pm_empty pm_rules unit exact2 echo 50 t (lstart PM (pm_init exps) unit [] tt) with Some (o, _) => Some o | None => None end
  | None => None end = Some (u extext).
Proof. vm_compute. reflexivity. Qed.
