(** Calls of parse_file at the same time. *)
From Verif Require Import Base Ast SmError ParseFile ParseFiles SpecSession.

(** the calls with these sources and destinations, all about to start *)
Definition calls (args : list (path * path)) : list job := map (fun a => mkJob (fst a) (snd a) Opening) args.
(** no destination is the destination or the source of another call *)
Definition apart (args : list (path * path)) : Prop :=
  forall i j a b, i <> j -> nth_error args i = Some a -> nth_error args j = Some b -> snd a <> snd b /\ snd a <> fst b.
(** the call is as far as a call alone *)
Inductive same_stage : job_pc -> pf_pc -> Prop :=
| stage_opening : same_stage Opening AtRead
| stage_reading : forall got, same_stage (Reading got) AtRead
| stage_parsing : forall text, same_stage (Parsing text) (AtParse text)
| stage_creating : forall a, same_stage (Creating a) (AtCreate a)
| stage_writing : forall gone left, same_stage (Writing gone left) (AtWrite left)
| stage_over : forall r, same_stage (Over r) (Finished r).
Definition succeeded (j : job) : Prop := job_at j = Over (Ret (Ok tt)).
