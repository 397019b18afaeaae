(** Specification for C49: what a training corpus made of a tagged and an untagged text is.  A unit comes with the mark
    that it ends a sentence. *)
From Verif Require Import Model.Base Model.Serialiser Model.Stream.

Definition marked := (lexunit * bool)%type.
(** the units cut after the marked ones *)
Fixpoint groups {X} (l : list (X * bool)) : list (list X) :=
  match l with
  | [] => []
  | (x, e) :: r => if e then [x] :: groups r else match groups r with [] => [[x]] | g :: gs => (x :: g) :: gs end
  end.
(** the reading a tagged unit gives *)
Definition reading (l : lexunit) : option analysis := match lx_an l with [] => None | a :: _ => Some a end.
(** the training sentence of tagged units and of untagged ones *)
Definition train (p : list (lexunit * lexunit)) : list (option analysis) * list lexunit := (map (fun x => reading (fst x)) p, map snd p).
(** same surface form *)
Definition same_sf (t w : lexunit) : Prop := lx_sf t = lx_sf w.
(** tagged and untagged units side by side, with the mark of the tagged one *)
Definition pairs (tg ut : list marked) : list ((lexunit * lexunit) * bool) := map (fun '((t, e), (w, _)) => ((t, w), e)) (combine tg ut).
(** a sentence of a text: only the last unit is marked *)
Inductive sentence : list marked -> Prop :=
| S_last : forall x, sentence [(x, true)]
| S_more : forall x s, sentence s -> sentence ((x, false) :: s).
(** the same sentence in both texts *)
Definition good (p : list marked * list marked) : Prop := Forall2 (fun t w => same_sf (fst t) (fst w)) (fst p) (snd p).
(** sentences that diverge, after at least one common unit and before either of them ends *)
Definition bad (p : list marked * list marked) : Prop :=
  exists a b t w tr ur, fst p = a ++ t :: tr /\ snd p = b ++ w :: ur /\ a <> [] /\
    Forall2 (fun t w => same_sf (fst t) (fst w)) a b /\ ~ same_sf (fst t) (fst w).
(** the training sentence of a good sentence *)
Definition train_of (p : list marked * list marked) : list (option analysis) * list lexunit := (map (fun x => reading (fst x)) (fst p), map fst (snd p)).
(** which sentences are good, how many are not, and whether the last is not *)
Inductive classified : list (list marked * list marked) -> list (list marked * list marked) -> nat -> bool -> Prop :=
| K_nil : classified [] [] 0 false
| K_good : forall l g n b p, classified l g n b -> good p -> classified (l ++ [p]) (g ++ [p]) n false
| K_bad : forall l g n b p, classified l g n b -> bad p -> classified (l ++ [p]) g (S n) true.
