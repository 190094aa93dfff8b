(** What a label means, independently of the way it is computed. *)
From Coq Require Import List ZArith Reals String DecimalString.
From Verif Require Import Unit_Model.
Import ListNotations.
Local Open Scope R_scope.

(** The power of ten announced by the text after the number: a prefix of the unit, or the exponent itself. *)
Inductive announces : string -> string -> Z -> Prop :=
| an_none : announces "" "" 0
| an_exp : forall e, e <> 0%Z -> announces "" (" e" ++ NilEmpty.string_of_int (Z.to_int e)) e
| an_unit : forall u p e, u <> ""%string ->
    In (p, e) [("G", 9%Z); ("M", 6%Z); ("K", 3%Z); ("", 0%Z); ("m", (-3)%Z); ("u", (-6)%Z)]%string ->
    announces u (" " ++ p ++ u) e.

(** The value read on a label whose text announces 10^e. *)
Definition read_value (l : label) (e : Z) : R := IZR (lab_num l) / 10 ^ lab_digits l * powerRZ 10 e.
