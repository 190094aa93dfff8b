(** Specification vocabulary for array programs: what can be observed of an
    array, which variables a statement mentions, which it may rebind. *)
From Verif Require Import Base Tab_Model.
Open Scope Z_scope.

Section Spec.
  Context {A : Type}.
  (** rows(), cols() and est_reference() of a variable *)
  Definition rows (s : st A) (v : nat) : res Z := let* im := impl_of s v in Ok (nr im).
  Definition cols (s : st A) (v : nat) : res Z := let* im := impl_of s v in Ok (nc im).
  Definition is_view (s : st A) (v : nat) : res bool := let* im := impl_of s v in Ok (est_reference im).

  (** Two states that no read of variable u can tell apart. *)
  Definition same_reads (s s' : st A) (u : nat) : Prop :=
    rows s' u = rows s u /\ cols s' u = cols s u /\
    (forall i, get s' u i = get s u i) /\ (forall i j, get2 s' u i j = get2 s u i j).

  (** The variables that a statement mentions. *)
  Definition vars (o : op A) : list nat :=
    match o with
    | Decl v _ _ | Set_ v _ _ | Set2 v _ _ _ | Resize v _ _ | CResize v _ _ => [v]
    | Copy v w | Assign v w | MoveAssign v w | Segment v w _ _ | Tail v w _ | Col v w _
    | Block v w _ _ _ _ => [v; w]
    end.
  (** All the variables of o satisfy P. *)
  Definition within (P : nat -> Prop) (o : op A) : Prop := forall v, In v (vars o) -> P v.

  (** States reachable by any program. *)
  Definition reachable (isf : bool) (s : st A) : Prop := exists os, exec_all isf empty os = Ok s.

  (** u is a view with the dimensions of w: u = w writes through it. *)
  Definition written_through (s : st A) (u w : nat) : Prop :=
    is_view s u = Ok true /\ rows s u = rows s w /\ cols s u = cols s w.
  (** The statement o may change the binding or the size of variable v: v is
      declared, assigned a new value (unless it is a view that is written
      through), moved from, or resized. *)
  Definition rebinds (s : st A) (o : op A) (v : nat) : Prop :=
    match o with
    | Decl u _ _ | Copy u _ | Segment u _ _ _ | Tail u _ _ | Col u _ _ | Block u _ _ _ _ _
    | Resize u _ _ | CResize u _ _ => u = v
    | MoveAssign u w => (u = v \/ w = v) /\ ~ written_through s u w
    | Assign u w => u = v /\ ~ written_through s u w
    | Set_ _ _ _ | Set2 _ _ _ _ => False
    end.
  (** No statement of the program rebinds v. *)
  Fixpoint keeps (isf : bool) (s : st A) (os : list (op A)) (v : nat) : Prop :=
    match os with
    | [] => True
    | o :: t => ~ rebinds s o v /\ forall s1, exec isf s o = Ok s1 -> keeps isf s1 t v
    end.

  (** Programs without block(), see the findings. *)
  Definition noblock (o : op A) : Prop := match o with Block _ _ _ _ _ _ => False | _ => True end.
  Definition reachable_nb (isf : bool) (s : st A) : Prop :=
    exists os, (forall o, In o os -> noblock o) /\ exec_all isf empty os = Ok s.

  (** Statements that create no view, with non-negative sizes. *)
  Definition plain (o : op A) : Prop :=
    match o with
    | Decl _ n m | Resize _ n m | CResize _ n m => 0 <= n /\ 0 <= m
    | Segment _ _ _ _ | Tail _ _ _ | Col _ _ _ | Block _ _ _ _ _ _ | Set2 _ _ _ _ => False
    | _ => True
    end.
  Definition reachable_plain (isf : bool) (s : st A) : Prop :=
    exists os, (forall o, In o os -> plain o) /\ exec_all isf empty os = Ok s.
  (** The variables that a statement reads or modifies (all but the declared one) exist. *)
  Definition bound (s : st A) (o : op A) : Prop :=
    match o with
    | Decl _ _ _ => True
    | Copy _ w | Assign _ w | MoveAssign _ w | Segment _ w _ _ | Tail _ w _ | Col _ w _
    | Block _ w _ _ _ _ => env s w <> None
    | Set_ v _ _ | Set2 v _ _ _ | Resize v _ _ | CResize v _ _ => env s v <> None
    end.
End Spec.
