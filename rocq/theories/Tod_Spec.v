(** Specification vocabulary for wavelets (C77). *)
From Coq Require Import Reals.
From Verif Require Import Base Poly_Model Poly_Spec RField Tod_Model.
Local Open Scope cring_scope.

Section Spec.
  Context {K : cring}.
  (** The elements of even (odd) rank among the first n. *)
  Definition evens (x : list K) (n : nat) : list K := map (fun i => nth (2 * i) x 0) (seq 0 (Nat.div2 (n + 1))).
  Definition odds (x : list K) (n : nat) : list K := map (fun i => nth (2 * i + 1) x 0) (seq 0 (Nat.div2 n)).
  (** Non-causal filter: sum over l of c_l v(j + n0 + l), v being zero outside its list. *)
  Definition lap (c : list K) (n0 : Z) (v : list K) (j : nat) : K :=
    sum (length c) (fun l => nth l c 0 * sampZ v (Z.of_nat j + n0 + Z.of_nat l)).
  (** One lifting stage on the pair (approximation, detail): the predicted part (detail)
      gets the filtered approximation added, the other stages add the filtered detail to
      the approximation. *)
  Definition lift_one (p : list K * list K) (e : lift_elem K) : list K * list K :=
    let c := p_coefs (l_pol (e_lau e)) in let n0 := l_n0 (e_lau e) in
    let (s, d) := p in
    if e_predict e then (s, map (fun j => nth j d 0 + lap c n0 s j) (seq 0 (length d)))
    else (map (fun j => nth j s 0 + lap c n0 d j) (seq 0 (length s)), d).
  (** One level of the transform of an even number of samples. *)
  Definition level (w : lift K) (x : list K) : list K * list K :=
    fold_left lift_one (li_steps w) (evens x (length x), odds x (length x)).
  (** Several levels: the approximation is transformed again, details follow. *)
  Fixpoint levels (w : lift K) (k : nat) (x : list K) : list K :=
    match k with O => x | S k => let (s, d) := level w x in levels w k s ++ d end.
End Spec.

(** Odd part of an integer: k divided by the greatest power of two. *)
Fixpoint podd (p : positive) : positive := match p with xO q => podd q | _ => p end.
Definition oddpart (k : nat) : nat := match N.of_nat k with N0 => O | Npos p => Pos.to_nat (podd p) end.

(** Integer power of a field element. *)
Definition zpow {K : cfield} (z : K) (n : Z) : K := if (0 <=? n)%Z then cpow z (Z.to_nat n) else cpow (finv z) (Z.to_nat (- n)).
(** Value of a Laurent polynomial: sum of p_n z^(n0 + n). *)
Definition lval {K : cfield} (l : laurent K) (z : K) : K := pval (p_coefs (l_pol l)) z * zpow z (l_n0 l).
(** 2 x 2 matrices ((a, b), (c, d)). *)
Record mat2 (K : cring) := M2 { m00 : K; m01 : K; m10 : K; m11 : K }.
Arguments M2 {K}. Arguments m00 {K}. Arguments m01 {K}. Arguments m10 {K}. Arguments m11 {K}.
Definition mmul {K : cring} (a b : mat2 K) : mat2 K :=
  M2 (m00 a * m00 b + m01 a * m10 b) (m00 a * m01 b + m01 a * m11 b) (m10 a * m00 b + m11 a * m10 b) (m10 a * m01 b + m11 a * m11 b).
Definition mid {K : cring} : mat2 K := M2 1 0 0 1.
Definition mdet {K : cring} (a : mat2 K) : K := m00 a * m11 a - m01 a * m10 a.
(** Documented matrix of a stage: ((1, 0), (T, 1)) for a prediction, ((1, S), (0, 1)) otherwise. *)
Definition mstage {K : cfield} (z : K) (e : lift_elem K) : mat2 K :=
  if e_predict e then M2 1 0 (lval (e_lau e) z) 1 else M2 1 (lval (e_lau e) z) 0 1.
(** Product of the stages, the first one applied first. *)
Fixpoint mstages {K : cfield} (z : K) (es : list (lift_elem K)) : mat2 K :=
  match es with [] => mid | e :: t => mmul (mstages z t) (mstage z e) end.
(** Values of the entries of a polyphase matrix. *)
Definition ppval {K : cfield} (m : polyphase K) (z : K) : mat2 K := M2 (lval (h00 m) z) (lval (h01 m) z) (lval (h10 m) z) (lval (h11 m) z).
(** All the polynomials of a scheme are given by their coefficients. *)
Definition by_coefs {K : cring} (w : lift K) : Prop := Forall (fun e => p_roots (l_pol (e_lau e)) = false) (li_steps w).
