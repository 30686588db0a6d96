(** Specification vocabulary: reply values that cannot be encoded. *)
From Verif Require Export SpecWire.

(** There is a nil interface somewhere in the value: it is nil itself, or an array with such an element. *)
Inductive nil_in : rdata -> Prop :=
| ni_here : nil_in RNil
| ni_arr l d : d ∈ l -> nil_in d -> nil_in (RArr (Some l)).
