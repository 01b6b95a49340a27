(** What the old and new segments of the ranges of a line have to do with the lines. *)
From Coq Require Import List.
Import ListNotations.

(** [cur] is [prev] with consecutive pieces replaced: for every pair (old, new) of the list, from left to right, one occurrence of [old] by [new]. *)
Inductive patched : list (list nat * list nat) -> list nat -> list nat -> Prop :=
| patched_none gap : patched [] gap gap
| patched_some gap old new l prev cur : patched l prev cur -> patched ((old, new) :: l) (gap ++ old ++ prev) (gap ++ new ++ cur).
