(** Textbook regular expressions and their languages. *)
From Verif Require Import Base RegexModel SpecRegex.

(** The alphabet is given by sets of characters, among them all single
    characters. *)
Inductive rx : Type :=
| Zero
| One
| Sym (l : lit)
| Plus (r s : rx)
| Times (r s : rx)
| Star (r : rx).

Inductive star (L : list char -> Prop) : list char -> Prop :=
| star_none : star L []
| star_more u v : L u -> star L v -> star L (u ++ v).

Fixpoint words {env : Env} (r : rx) : list char -> Prop :=
  match r with
  | Zero => fun _ => False
  | One => fun w => w = []
  | Sym l => fun w => exists c, w = [c] /\ lit_set l c
  | Plus r s => fun w => words r w \/ words s w
  | Times r s => fun w => exists u v, w = u ++ v /\ words r u /\ words s v
  | Star r => star (words r)
  end.
