(** Model of the vector utilities of core/include/tsd/tsd.hpp and core/src/tsd.cc:
    concatenation, rotation, searches, ranges, and the trapezoidal rule of
    core/src/ct.cc.

    Concatenations are programs over the array heap of Tab_Model.v, since their
    behaviour depends on views.  The numeric functions are over any field. *)
From Verif Require Import Base Tab_Model.

(** ** Concatenation *)
Section Concat.
  Context {A : Type}.
  Open Scope Z_scope.
  (** tsd.hpp:137-145, vconcat of vectors a (n elements) and b (m elements): c is
      the result, t1 and t2 the temporaries c.head(n) and c.tail(m). *)
  Definition vconcat_prog (c a b t1 t2 : nat) (n m : Z) : list (op A) :=
    [Decl c (n + m) 1]
    ++ (if 0 <? n then [Segment t1 c 0 n; Assign t1 a] else [])
    ++ (if 0 <? m then [Tail t2 c m; Assign t2 b] else []).
  (** tsd.hpp:157-167, vconcat of matrices a (ra x ca) and b (rb x cb).
      c.block(0, 0, a.rows(), a.cols()) is block(r0 = 0, nr = 0, c0 = ra, nc = ca). *)
  Definition vconcat2 (isf : bool) (s : st A) (c a b t1 t2 : nat) : res (st A) :=
    let* ia := impl_of s a in
    let* ib := impl_of s b in
    if negb (nc ia =? nc ib) then Exc else
    exec_all isf s
      ([Decl c (nc ia) (nr ia + nr ib)]
       ++ (if 0 <? nr ia then [Block t1 c 0 0 (nr ia) (nc ia); Assign t1 a] else [])
       ++ (if 0 <? nr ib then [Block t2 c (nr ia) 0 (nr ib) (nc ia); Assign t2 b] else [])).
  (** tsd.hpp:171-181, hconcat *)
  Definition hconcat (isf : bool) (s : st A) (c a b t1 t2 : nat) : res (st A) :=
    let* ia := impl_of s a in
    let* ib := impl_of s b in
    if negb (nr ia =? nr ib) then Exc else
    exec_all isf s
      ([Decl c (nc ia + nc ib) (nr ia)]
       ++ (if 0 <? nc ia then [Block t1 c 0 0 (nr ia) (nc ia); Assign t1 a] else [])
       ++ (if 0 <? nc ib then [Block t2 c 0 (nc ia) (nr ib) (nc ib); Assign t2 b] else [])).
End Concat.

(** ** Rotation, searches, ranges *)

(** tsd.hpp:211-216 rotation_vec, element i: x((i + d + n) % n), with the
    truncated remainder of C *)
Definition rotation_vec {A} (x : list A) (d : Z) : res (list A) :=
  let n := Z.of_nat (length x) in
  let fix go (k i : nat) : res (list A) :=
    match k with
    | O => Ok []
    | S k' => let* a := vgetZ x (Z.rem (Z.of_nat i + d + n) n) in
              let* t := go k' (S i) in Ok (a :: t)
    end in go (length x) 0%nat.

(** tsd.cc:519-526 trouve *)
Fixpoint trouve_from (i : nat) (x : list bool) : list nat :=
  match x with [] => [] | b :: t => if b then i :: trouve_from (S i) t else trouve_from (S i) t end.
Definition trouve (x : list bool) : list nat := trouve_from 0 x.
(** tsd.cc:529-535 trouve_premier *)
Fixpoint premier_from (i : nat) (x : list bool) : Z :=
  match x with [] => (-1)%Z | b :: t => if b then Z.of_nat i else premier_from (S i) t end.
Definition trouve_premier (x : list bool) : Z := premier_from 0 x.
(** tsd.cc:538-544 trouve_dernier: from the last index k-1 down to 0 *)
Fixpoint dernier_from (k : nat) (x : list bool) : Z :=
  match k with O => (-1)%Z | S i => if negb (nth i x false) then Z.of_nat i + 1 else dernier_from i x end.
Definition trouve_dernier (x : list bool) : Z := dernier_from (length x) x.
(** tsd.hpp:327-333 trouve_premier_max_local *)
Fixpoint max_local_from {A} (gt : A -> A -> bool) (i : nat) (x : list A) : Z :=
  match x with
  | a :: ((b :: c :: _) as t) => if gt b a && gt b c then Z.of_nat i else max_local_from gt (S i) t
  | _ => (-1)%Z
  end.
Definition trouve_premier_max_local {A} (gt : A -> A -> bool) (x : list A) : Z := max_local_from gt 1 x.
(** tsd.hpp:740-752 sousvec *)
Fixpoint sousvec {A} (x : list A) (idx : list Z) : res (list A) :=
  match idx with [] => Ok [] | i :: t => let* a := vgetZ x i in let* r := sousvec x t in Ok (a :: r) end.
(** tsd.hpp:969-976 intervalle_entier (a negative size allocates nothing, and
    the loop does not run) *)
Definition intervalle_entier (a b : Z) : list Z := map (fun k => a + Z.of_nat k)%Z (seq 0 (Z.to_nat (b - a + 1))).
(** tsd.hpp:916-931 linspace *)
Definition linspace {K : cfield} (a b : K) (n : nat) : list K :=
  match n with
  | O => []
  | S m => a :: map (fun i => a + (b - a) / cnat (n - 1) * cnat i)%K (seq 1 m)
  end.
(** tsd.hpp:515-533 pad_zeros, p2 = false: the first n1 (n2) elements replaced *)
Definition pad_zeros {K : cring} (x y : list K) : list K * list K :=
  let n := Nat.max (length x) (length y) in
  (x ++ repeat c0 (n - length x), y ++ repeat c0 (n - length y)).

(** ct.cc:31-70 intégrale_trap, for a function f over any field; n < 1: t(0)
    throws.  The sampling points are linspace(tmin, tmax, n). *)
Section Trap.
  Context {K : cfield}.
  Open Scope cring_scope.
  Fixpoint trap_loop (f : K -> K) (delta half y f0 : K) (t : list K) : K :=
    match t with
    | [] => y
    | a :: r => let f1 := f a in trap_loop f delta half (y + delta * (f0 + f1) * half) f1 r
    end.
  Definition integrale_trap (f : K -> K) (tmin tmax : K) (n : nat) : res K :=
    let delta := (tmax - tmin) / cnat (n - 1) in
    match linspace tmin tmax n with
    | [] => Exc
    | t0 :: r => Ok (trap_loop f delta (1 / cnat 2) 0 (f t0) r)
    end.
End Trap.
