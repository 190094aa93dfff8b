(** Specification side: moving average of n samples. *)
From Verif Require Import Base.
Local Open Scope cring_scope.
(** Transfer function (1 / n) (1 + z^-1 + ... + z^-(n-1)). *)
Definition moving_average {K : cfield} (n : nat) (z : K) : K := (1 / cnat n) * sum n (fun k => cpow (finv z) k).
