(** C44: in null-flush mode documents do not influence each other. *)
From Coq Require Import String ZArith.
From Verif Require Import Model.Base Proofs.Base Model.ChunkLoop Model.ChunkTokens Spec.ChunkLoop Spec.ChunkTokens Proofs.TransferMult Proofs.ChunkLoop Proofs.ChunkTokens Proofs.Patterns Props.C31.

(** transfer clears its buffers before each document, interchunk at the end of each; both: each document gives what it gives
    alone, followed by a NUL (one more than in the input, for the text after the last NUL) *)
Theorem C44_documents_partial : forall clear_end clear_start MS i w b e rs G act default plen nrules g0,
  clear_end = true \/ clear_start = true ->
  good MS i w b e rs G act plen nrules -> shifts_whole act plen ->
  forall docs : list doc, exists fuel outs,
    Forall2 (fun d o => exists g', Run (laccepts MS i w b rs) G act default [] g0 (stream_items (fst d)) (snd d) o g') docs outs /\
    ldocs clear_end MS i w b e rs G act default clear_start fuel g0 [] (map doc_toks docs) = Some (flat_map (fun o => o ++ [cNUL]) outs).
Proof.
  intros ce cs MS i w b e rs G act default plen nrules g0 HC HG HS docs.
  assert (K : exists f0 outs, Forall2 (fun d o => exists g', Run (laccepts MS i w b rs) G act default [] g0 (stream_items (fst d)) (snd d) o g') docs outs /\
    forall fuel tb, f0 <= fuel -> (cs = false -> tb = []) -> ldocs ce MS i w b e rs G act default cs fuel g0 tb (map doc_toks docs) = Some (flat_map (fun o => o ++ [cNUL]) outs)).
  { induction docs as [|d docs (f1 & outs & I1 & I2)]; [exists 0, []; split; [constructor|reflexivity]|].
    destruct (loop_correct ce MS i w b e rs G act default plen nrules (stream_items (fst d)) (snd d) g0 HG HS (sep_stream _)) as (f0 & o & st & H1 & H2 & H3).
    exists (Nat.max f0 f1), (o :: outs). split; [constructor; [eauto|exact I1]|]. intros fuel tb Hf Htb. cbn [map ldocs].
    replace (if cs then [] else tb) with (@nil str) by (destruct cs; [reflexivity|symmetry; apply Htb; reflexivity]).
    unfold doc_toks at 1. rewrite H1 by lia. rewrite I2; [|lia|intros Hc; apply H3; destruct HC; congruence].
    cbn [flat_map]. rewrite <- app_assoc. reflexivity. }
  destruct K as (f0 & outs & K1 & K2). exists f0, outs. split; [exact K1|]. apply K2; [apply le_n|reflexivity].
Qed.
Print Assumptions C44_documents_partial.
(** from the text: interchunk's reader splits the input into its documents, and transfer's *)
Theorem C44_interchunk_documents : forall d l, doc_ok ChunkText d -> Forall (doc_ok ChunkText) l ->
  kdocs (fun iw s => klex true iw KTop s []) (S (length l)) false (docs_text d l) = Some (map doc_toks (d :: l)).
Proof. intros d l H1 H2. apply k_docs; [assumption|assumption|apply le_n]. Qed.
Print Assumptions C44_interchunk_documents.
Theorem C44_transfer_documents : forall d l, doc_ok BText d -> Forall (doc_ok BText) l ->
  kdocs (fun _ s => tlex true TTop s []) (S (length l)) false (docs_text d l) = Some (map doc_toks (d :: l)).
Proof. intros d l H1 H2. apply t_docs; [assumption|assumption|apply le_n]. Qed.
Print Assumptions C44_transfer_documents.

(** FINDING: postchunk clears its blank buffer neither at the end nor at the start of a document.  With a rule that rejects
    the last chunk, the text at the end of the first document replaces the text at the start of the second. *)
Definition post_run (clear_end : bool) (docs : list doc) : option str :=
  ldocs clear_end PM (pm_init exps) pm_word pm_blank pm_empty pm_rules unit exact0 exdefault false 50 tt [] (map doc_toks docs).
Definition exdocs : list doc := [([(u "", u "b")], u ".[]"); ([(u "[<p>]", u "c")], u "")].
Theorem C44_postchunk_refuted :
  post_run false exdocs = Some (u "^b$.[]" ++ [cNUL] ++ u ".[]^c$" ++ [cNUL]) /\
  post_run true exdocs = Some (u "^b$.[]" ++ [cNUL] ++ u "[<p>]^c$" ++ [cNUL]).
Proof. split; vm_compute; reflexivity. Qed.
Print Assumptions C44_postchunk_refuted.
(** FINDING: an unfinished lexical unit at the end of a document makes the reader start the next document inside a word:
    the text up to its first dollar sign is taken for a word. *)
Theorem C44_inword_refuted : kdocs (fun iw s => klex true iw KTop s []) 5 false (u "^a" ++ [cNUL] ++ u "5$ ^b$") =
  Some [[KBlank []; KEof (u "a")]; [KWord (u "5"); KBlank (u " "); KWord (u "b"); KEof []]].
Proof. vm_compute. reflexivity. Qed.
Print Assumptions C44_inword_refuted.

Example C44_case_ok : doc_ok ChunkText (nth 1 exdocs ([], [])) /\ docs_text (nth 0 exdocs ([], [])) [nth 1 exdocs ([], [])] = u "^b$.[]" ++ [cNUL] ++ u "[<p>]^c$".
Proof.
  split; [|reflexivity]. split; [|constructor]. constructor; [|constructor]. split; [|apply ct_plain; repeat constructor; discriminate].
  apply (bt_sup (u "<p>") []); [repeat constructor; discriminate|constructor].
Qed.
