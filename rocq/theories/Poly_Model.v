(** Model of core/include/tsd/filtrage/frat.hpp: Poly<T> and FRat<T> (exact arithmetic).
    Copies of vectors are deep in the code (copy constructor of Vecteur), so
    vectors are plain lists here.  The display functions, clean(), norm() and
    roots() (numerical eigenvalues) are not modelled, nor is the name of the variable. *)
From Verif Require Import Base.
Local Open Scope cring_scope.

(** frat.hpp:14-34: coefficients (or roots), mode, multiplier *)
Record poly (K : cring) := mkpoly { p_coefs : list K; p_roots : bool; p_mlt : K }.
Arguments mkpoly {K}. Arguments p_coefs {K}. Arguments p_roots {K}. Arguments p_mlt {K}.
(** frat.hpp:23 default constructor; 28-33 from coefficients; 37-43 from roots; 46-52 constant; 427-433 one; 417-425 z *)
Definition p_empty {K : cring} : poly K := mkpoly [] false 1.
Definition p_of {K : cring} (c : list K) : poly K := mkpoly c false 1.
Definition p_from_roots {K : cring} (r : list K) : poly K := mkpoly r true 1.
Definition p_const {K : cring} (a : K) : poly K := p_of [a].
Definition p_one {K : cring} : poly K := p_of [1].
Definition p_z {K : cring} : poly K := p_of [0; 1].

(** frat.hpp:154-190, horner.  Line 187: coefs(n-k-2) for k = 0 .. n-2. *)
Definition p_horner {K : cring} (p : poly K) (x : K) : K :=
  if p_roots p then fold_left (fun r c => r * (x - c)) (p_coefs p) (p_mlt p)
  else match rev (p_coefs p) with
       | [] => 0
       | c :: t => fold_left (fun r c => r * x + c) t c
       end.

(** frat.hpp:376-399, sum of two coefficient vectors: the shorter one is added to the head of the longer one. *)
Fixpoint add_head {K : cring} (l s : list K) : list K :=
  match l, s with
  | a :: l', b :: s' => (a + b) :: add_head l' s'
  | _, [] => l
  | [], _ => []
  end.
Definition add_coefs {K : cring} (a b : list K) : list K :=
  if (length b <=? length a)%nat then add_head a b else add_head b a.

(** frat.hpp:334-357, product of two coefficient vectors started from [init]: res = res + s2(k) * (s1 shifted by k).
    (res is in coefficient form from the first addition on.) *)
Definition mul_coefs {K : cring} (init a b : list K) : list K :=
  fold_left (fun r kb => add_coefs r (repeat 0 (fst kb) ++ map (fun v => v * snd kb) a)) (combine (seq 0 (length b)) b) init.

(** frat.hpp:91-117, vers_coefs: product of the monomials z - r_i, then multiplication by mlt (275-293).
    The product [res *= monome] is the coefficient-coefficient case, which starts from an empty result. *)
Definition p_vers_coefs {K : cring} (p : poly K) : poly K :=
  if p_roots p then p_of (map (fun v => v * p_mlt p) (fold_left (fun c r => mul_coefs [] c [- r; 1]) (p_coefs p) [1])) else p.

(** frat.hpp:376-399 *)
Definition p_add {K : cring} (p q : poly K) : poly K := p_of (add_coefs (p_coefs (p_vers_coefs p)) (p_coefs (p_vers_coefs q))).
(** frat.hpp:367-374, adding a constant *)
Definition p_addc {K : cring} (p : poly K) (s : K) : poly K :=
  let r := p_vers_coefs p in
  let c := match p_coefs r with [] => [0] | c => c end in
  mkpoly (match c with a :: t => (a + s) :: t | [] => [] end) (p_roots r) (p_mlt r).
(** frat.hpp:401-409 *)
Definition p_neg {K : cring} (p : poly K) : poly K :=
  if p_roots p then mkpoly (p_coefs p) true (- p_mlt p) else mkpoly (map (fun v => - v) (p_coefs p)) false (p_mlt p).
(** frat.hpp:411-414 *)
Definition p_sub {K : cring} (p q : poly K) : poly K := p_add p (p_neg q).
(** frat.hpp:362-365 *)
Definition p_subc {K : cring} (p : poly K) (s : K) : poly K := p_addc p (- s).
(** frat.hpp:275-293 *)
Definition p_scale {K : cring} (p : poly K) (s : K) : poly K :=
  if p_roots p then mkpoly (p_coefs p) true (p_mlt p * s) else p_of (map (fun v => v * s) (p_coefs p)).
(** frat.hpp:320-360.  res starts with the mode of the left operand (line 324) and no coefficient.
    In the coefficient case [res + prod] (line 355) first turns an empty root-mode res into the constant 1. *)
Definition p_mul {K : cring} (p q : poly K) : poly K :=
  if p_roots p && p_roots q then mkpoly (p_coefs p ++ p_coefs q) true (p_mlt p * p_mlt q)
  else
    let a := p_coefs (p_vers_coefs p) in
    let b := p_coefs (p_vers_coefs q) in
    match b with
    | [] => mkpoly [] (p_roots p) 1
    | _ => p_of (mul_coefs (p_coefs (p_vers_coefs (mkpoly [] (p_roots p) 1))) a b)
    end.
(** frat.hpp:238-263 *)
Definition p_pow {K : cring} (p : poly K) (e : nat) : poly K :=
  match e with
  | O => p_one
  | S _ => if p_roots p then mkpoly (concat (repeat (p_coefs p) e)) true (cpow (p_mlt p) e)
           else Nat.iter e (fun r => p_mul r p) (p_of [1])
  end.
(** frat.hpp:265-273: the result is always in coefficient mode *)
Definition p_shift {K : cring} (p : poly K) (i : nat) : poly K := p_of (repeat 0 i ++ p_coefs p).

(** ** FRat, frat.hpp:505-870 *)
Record frat (K : cring) := mkfrat { f_num : poly K; f_den : poly K }.
Arguments mkfrat {K}. Arguments f_num {K}. Arguments f_den {K}.
(** 517-521, 524-528, 533-536, 552-560 *)
Definition f_const {K : cring} (a : K) : frat K := mkfrat (p_scale p_one a) p_one.
Definition f_un {K : cring} : frat K := mkfrat p_one p_one.
Definition f_z {K : cring} : frat K := mkfrat p_z p_one.
Definition f_zinv {K : cring} : frat K := mkfrat p_one p_z.
(** 744-748 *)
Definition f_horner {K : cfield} (f : frat K) (x : K) : K := p_horner (f_num f) x / p_horner (f_den f) x.
(** 571-574 *)
Definition f_developpe {K : cring} (f : frat K) : frat K := mkfrat (p_vers_coefs (f_num f)) (p_vers_coefs (f_den f)).
(** 625-637 (no coefficient: the code logs an error through msg_erreur, modelled as an exception) *)
Definition f_rif {K : cring} (a : list K) : res (frat K) :=
  match a with [] => Exc | _ => Ok (mkfrat (p_of (rev a)) (p_of (repeat 0 (length a - 1) ++ [1]))) end.
(** 855-859 and 639-644; isz v: v = 0; the code reads the coefficient vectors whatever the mode *)
Definition f_est_rif {K : cring} (isz : K -> bool) (f : frat K) : bool :=
  forallb isz (removelast (p_coefs (f_den f))) && isz (last (p_coefs (f_den f)) 0 - 1).
Definition f_coefs_rif {K : cring} (isz : K -> bool) (f : frat K) : res (list K) :=
  if f_est_rif isz f then Ok (rev (p_coefs (f_num f))) else Exc.
(** 652-671; operator precedence: [d * z ^ k] is [(d * z) ^ k] in C++ *)
Definition f_inv_z {K : cring} (f : frat K) : frat K :=
  let a := p_coefs (p_vers_coefs (f_num f)) in
  let b := p_coefs (p_vers_coefs (f_den f)) in
  let nn := length a in let nd := length b in
  let n := p_of (rev a) in let d := p_of (rev b) in
  if (nd <? nn)%nat then mkfrat n (p_pow (p_mul d p_z) (nn - nd))
  else if (nn <? nd)%nat then mkfrat (p_pow (p_mul n p_z) (nd - nn)) d
  else mkfrat n d.
(** 693-707 *)
Definition f_rii {K : cring} (a b : list K) : res (frat K) :=
  match a, b with
  | [], _ | _, [] => Exc
  | _, _ => Ok (f_inv_z (mkfrat (p_of a) (p_of b)))
  end.
(** 711-729.  For n = -1 the code writes coefs(-1) of an empty vector (exception); below -1 it
    asks for a vector of negative length first. *)
Definition f_z_power {K : cring} (n : Z) : res (frat K) :=
  if (n =? 0)%Z then Ok f_un
  else if (0 <? n)%Z then Ok (mkfrat (p_of (repeat 0 (Z.to_nat n) ++ [1])) (p_of [1]))
  else Exc.
(** 750-780 *)
Definition f_scale {K : cring} (f : frat K) (s : K) : frat K := mkfrat (p_scale (f_num f) s) (f_den f).
Definition f_addc {K : cring} (f : frat K) (s : K) : frat K := mkfrat (p_add (f_num f) (p_scale (f_den f) s)) (f_den f).
Definition f_subc {K : cring} (f : frat K) (s : K) : frat K := f_addc f (- s).
Definition f_add {K : cring} (f g : frat K) : frat K :=
  mkfrat (p_add (p_mul (f_num f) (f_den g)) (p_mul (f_num g) (f_den f))) (p_mul (f_den f) (f_den g)).
(** 808-811 *)
Definition f_neg {K : cring} (f : frat K) : frat K := mkfrat (p_neg (f_num f)) (f_den f).
Definition f_sub {K : cring} (f g : frat K) : frat K := f_add f (f_neg g).
Definition f_mul {K : cring} (f g : frat K) : frat K := mkfrat (p_mul (f_num f) (f_num g)) (p_mul (f_den f) (f_den g)).
(** 66-76 nb_coefs_nuls *)
Fixpoint nb_nuls {K : cring} (isz : K -> bool) (l : list K) : nat :=
  match l with [] => 0%nat | a :: t => if isz a then S (nb_nuls isz t) else 0%nat end.
(** 784-799: only the mode of the numerator is looked at *)
Definition drop_coefs {K : cring} (m : nat) (p : poly K) : poly K := mkpoly (skipn m (p_coefs p)) (p_roots p) (p_mlt p).
Definition f_simplifier {K : cring} (isz : K -> bool) (f : frat K) : frat K :=
  if p_roots (f_num f) then f else
  let m := Nat.min (nb_nuls isz (p_coefs (f_num f))) (nb_nuls isz (p_coefs (f_den f))) in
  mkfrat (drop_coefs m (f_num f)) (drop_coefs m (f_den f)).
(** 802-807 *)
Definition f_div {K : cring} (isz : K -> bool) (f g : frat K) : frat K :=
  f_simplifier isz (mkfrat (p_mul (f_num f) (f_den g)) (p_mul (f_den f) (f_num g))).
(** 849-852 *)
Definition f_inv {K : cring} (f : frat K) : frat K := mkfrat (f_den f) (f_num f).
(** 839-847 *)
Fixpoint f_pow {K : cring} (f : frat K) (n : nat) : frat K :=
  match n with O => f_un | S O => f | S m => f_mul (f_pow f m) f end.
(** 876-899: scalar on the left *)
Definition f_cdiv {K : cring} (v : K) (f : frat K) : frat K := f_scale (f_inv f) v.
Definition f_csub {K : cring} (v : K) (f : frat K) : frat K := f_addc (f_neg f) v.
