(** Model of the Levinson recursions of core/src/stats.cc, over any field (exact
    arithmetic).  Work vectors f, b (and a) grow with the order: the C++ ones
    have full size n, but only their first i elements are read or written at
    order i, so the uninitialised rest is left out. *)
From Verif Require Import Base Filters_Model.

Section Lev.
Context {K : cfield}.
Open Scope cring_scope.

(** tableau.hpp:933-941 dot (same length checked by the callers' slices), somme of a product *)
Fixpoint dot (u v : list K) : K :=
  match u, v with a :: u', b :: v' => a * b + dot u' v' | _, _ => 0 end.
Definition zipw (f : K -> K -> K) (u v : list K) : list K := map (fun p => f (fst p) (snd p)) (combine u v).
(** v.tail(k) *)
Definition lastn (k : nat) (v : list K) : list K := skipn (length v - k) v.

(** stats.cc:18-40 levinson_reel: body of the loop for order i; state (a, alpha) *)
Definition levr_step (r : list K) (st : list K * K) (i : nat) : list K * K :=
  let (a, al) := st in
  let a1 := firstn (i - 1) (skipn 1 a) in
  let s := dot (firstn (i - 1) (skipn 1 r)) (rev a1) + nth i r 0 in
  let k := - s / al in
  (nth 0 a 0 :: zipw (fun u v => u + k * v) a1 (rev a1) ++ [k], al * (1 - k * k)).
(** a(0) = 1 throws when r is empty, r(1) when it has one element *)
Definition levinson_reel (r : list K) : res (list K) :=
  match r with
  | r0 :: r1 :: _ =>
      let k := - r1 / r0 in
      Ok (fst (fold_left (levr_step r) (seq 2 (length r - 2)) ([1; k], r0 * (1 - k * k))))
  | _ => Exc
  end.

(** stats.cc:45-112 levinson: body of the loop for dimension i; state (f, b, x) *)
Definition lev_step (c1r l1r y : list K) (st : list K * list K * list K) (i : nat) : list K * list K * list K :=
  let '(f, b, x) := st in
  let fb := f ++ [0] in
  let bb := 0 :: b in
  let ef := dot (lastn (i - 1) c1r) f in
  let eb := dot (firstn (i - 1) l1r) b in
  let fr := 1 / (1 - eb * ef) in
  let f' := zipw (fun u v => fr * u - ef * fr * v) fb bb in
  let b' := zipw (fun u v => fr * v - eb * fr * u) fb bb in
  let ex := dot (lastn (i - 1) c1r) (firstn (i - 1) x) in
  let d := nth (i - 1) y 0 - ex in
  (f', b', zipw (fun u v => u + d * v) (firstn i x) b' ++ skipn i x).
(** eqb is the comparison l1(0) == c1(0); l1(0) throws when n = 0 *)
Definition levinson (eqb : K -> K -> bool) (l1 cc y : list K) : res (list K) :=
  let n := length l1 in
  if negb (length cc =? n)%nat then Exc else
  if negb (length y =? n)%nat then Exc else
  match l1, cc, y with
  | l0 :: l', c0' :: c', y0 :: _ =>
      if negb (eqb l0 c0') then Exc else
      let init := ([1 / l0], [1 / c0'], (y0 / l0) :: repeat 0 (n - 1)) in
      Ok (snd (fold_left (lev_step (rev c') l' y) (seq 2 (n - 1)) init))
  | _, _, _ => Exc
  end.

(** stats.hpp:112-128 r_vers_R, real case: element (i, j) *)
Definition r_vers_R (r : list K) (i j : nat) : K := nth (Z.to_nat (Z.abs (Z.of_nat i - Z.of_nat j))) r 0.

(** stats.cc:122-146 lpc, given the correlation r = real(cr.tail(p)) *)
Definition lpc (r x : list K) : res (list K * list K) :=
  let* a := levinson_reel r in
  let* se := fir_step (fir_init a) x in Ok (a, snd se).
End Lev.
