(** Model of the discrete wavelet transform, core/src/fourier/tod.cc and
    core/include/tsd/fourier/tod.hpp (exact arithmetic; names, display and the code under
    #if 0 are not modelled).  The static constants z0 and z of tod.cc:150-151 are taken
    as initialised (the order of initialisation of Poly<float>::z and of its copy in
    tod.cc is not modelled). *)
From Coq Require Import Reals.
From Verif Require Import Base Poly_Model RField.
Local Open Scope cring_scope.

(** tod.hpp:29-35 Laurent; 41-48 LiftElem; 62-69 Lift *)
Record laurent (K : cring) := mklau { l_pol : poly K; l_n0 : Z }.
Arguments mklau {K}. Arguments l_pol {K}. Arguments l_n0 {K}.
Record lift_elem (K : cring) := mkelem { e_lau : laurent K; e_predict : bool }.
Arguments mkelem {K}. Arguments e_lau {K}. Arguments e_predict {K}.
Record lift (K : cring) := mklift { li_K : K; li_steps : list (lift_elem K) }.
Arguments mklift {K}. Arguments li_K {K}. Arguments li_steps {K}.

(** ** Transform in place *)
Section Transform.
  Context {K : cring}.
  (** tod.cc:108-135 split: the even elements are copied, then the odd ones are moved to
      the end of the first n elements, then the even ones are written at the head *)
  Definition split (x : list K) (n : nat) : res (list K) :=
    let half := Nat.div2 (n + 1) in
    let* tmp := loop half (fun i t => let* v := vget x (2 * i) in Ok (t ++ [v])) [] in
    let mx := if Nat.even n then half else (half - 1)%nat in
    let dec := if Nat.even n then 0%nat else 1%nat in
    let* x := loop mx (fun k x => let i := S k in let* v := vget x (n + 1 - 2 * i - dec) in vset x (n - i) v) x in
    (** x.head(half) = tmp *)
    if (length x <? half)%nat then Exc else Ok (tmp ++ skipn half x).
  (** tod.cc:142-159 merge.  Line 149, [Vecteur<T> tmp = x.head(half)]: tmp is a view of
      x, not a copy (a vector built from a temporary segment keeps its storage, see
      Tab_Model.segment and property C36), so tmp(i) at line 157 reads the current x(i) *)
  Definition merge (x : list K) (n : nat) : res (list K) :=
    let half := Nat.div2 (n + 1) in
    if (length x <? half)%nat then Exc else
    let mx := if Nat.even n then half else (half - 1)%nat in
    let* x := loop mx (fun i x => let* v := vget x (i + half) in vset x (2 * i + 1) v) x in
    loop half (fun i x => let* v := vget x i in vset x (2 * i) v) x.

  (** tod.cc:225-235 and 252-262: one lifting stage; [f] adds or subtracts.  The
      coefficients of the polynomial are read whatever its mode. *)
  Definition stage (f : K -> K -> K) (e : lift_elem K) (half : nat) (x : list K) : res (list K) :=
    let idxi := if e_predict e then 0%nat else half in
    let idxo := if e_predict e then half else 0%nat in
    let c := p_coefs (l_pol (e_lau e)) in
    let n0 := l_n0 (e_lau e) in
    loop half (fun j x =>
      let* sm := loop (length c) (fun l sm =>
        let k := (Z.of_nat j + n0 + Z.of_nat l)%Z in
        if ((0 <=? k)%Z && (k <? Z.of_nat half)%Z)%bool then
          let* v := vgetZ x (Z.of_nat idxi + k) in let* cl := vget c l in Ok (sm + cl * v)
        else Ok sm) 0 in
      let* v := vget x (idxo + j) in vset x (idxo + j) (f v sm)) x.
  Fixpoint stages (f : K -> K -> K) (es : list (lift_elem K)) (half : nat) (x : list K) : res (list K) :=
    match es with [] => Ok x | e :: t => let* x := stage f e half x in stages f t half x end.
  (** tod.cc:213-237 lift_step; half = n >> 1 *)
  Definition lift_step (w : lift K) (x : list K) (n : nat) : res (list K) :=
    let* x := split x n in stages (fun a b => a + b) (li_steps w) (Nat.div2 n) x.
  (** tod.cc:238-265 ilift_step *)
  Definition ilift_step (w : lift K) (x : list K) (n : nat) : res (list K) :=
    let* x := stages (fun a b => a - b) (rev (li_steps w)) (Nat.div2 n) x in merge x n.

  (** tod.cc:474-483 dwt.  N >> (depth - 1): undefined for a negative or too large shift.
      n = 0 >= last = 0 stays 0: the loop does not end.  [fuel] bounds the halvings. *)
  Fixpoint dwt_loop (fuel : nat) (w : lift K) (x : list K) (n last : nat) : res (list K) :=
    if (n <? last)%nat then Ok x else
    match fuel with
    | O => Diverge
    | S fu => let* x := lift_step w x n in if (n =? 0)%nat then Diverge else dwt_loop fu w x (Nat.div2 n) last
    end.
  Definition dwt (w : lift K) (x : list K) (depth : Z) : res (list K) :=
    if ((depth <? 1) || (32 <? depth))%Z%bool then UB else
    let last := Z.to_nat (Z.shiftr (Z.of_nat (length x)) (depth - 1)) in
    dwt_loop (S (length x)) w x (length x) last.
  (** tod.cc:491-500 iwt; n << 1 is undefined beyond 2^31 (lengths below 2^30 here) *)
  Fixpoint iwt_loop (fuel : nat) (w : lift K) (x : list K) (n N : nat) : res (list K) :=
    if (N <? n)%nat then Ok x else
    match fuel with
    | O => Diverge
    | S fu => let* x := ilift_step w x n in if (n =? 0)%nat then Diverge else iwt_loop fu w x (2 * n) N
    end.
  Definition iwt (w : lift K) (x : list K) (depth : Z) : res (list K) :=
    if ((depth <? 1) || (32 <? depth))%Z%bool then UB else
    if (2 ^ 30 <=? Z.of_nat (length x))%Z then UB else
    let start := Z.to_nat (Z.shiftr (Z.of_nat (length x)) (depth - 1)) in
    iwt_loop (S (length x)) w x start (length x).
End Transform.

(** ** Polyphase form *)
Section Polyphase.
  Context {K : cring}.
  (** tod.cc:36-51 laurent_mac: a + b * c.  The shifts are not negative. *)
  Definition laurent_mac (a b c : laurent K) : laurent K :=
    let bc := mklau (p_mul (l_pol b) (l_pol c)) (l_n0 b + l_n0 c)%Z in
    let n0 := Z.min (l_n0 a) (l_n0 bc) in
    mklau (p_add (p_shift (l_pol a) (Z.to_nat (l_n0 a - n0))) (p_shift (l_pol bc) (Z.to_nat (l_n0 bc - n0)))) n0.
  (** tod.hpp:84-89 *)
  Record polyphase := mkpp { h00 : laurent K; h01 : laurent K; h10 : laurent K; h11 : laurent K }.
  (** tod.cc:58-70: each assignment uses the entries already updated (none of them is
      both read and written) *)
  Definition pp_step (m : polyphase) (e : lift_elem K) : polyphase :=
    if e_predict e then
      mkpp (h00 m) (h01 m) (laurent_mac (h10 m) (e_lau e) (h00 m)) (laurent_mac (h11 m) (e_lau e) (h01 m))
    else
      mkpp (laurent_mac (h00 m) (e_lau e) (h10 m)) (laurent_mac (h01 m) (e_lau e) (h11 m)) (h10 m) (h11 m).
  Definition l_scale (l : laurent K) (s : K) : laurent K := mklau (p_scale (l_pol l) s) (l_n0 l).
End Polyphase.
Arguments polyphase K : clear implicits.
(** tod.cc:53-76 FormePolyphase(lift); K = 0 gives infinities (the unspecified value of 1/0 here) *)
Definition polyphase_of {K : cfield} (w : lift K) : polyphase K :=
  let m := fold_left pp_step (li_steps w)
    (mkpp (mklau p_one 0) (mklau (p_const 0) 0) (mklau (p_const 0) 0) (mklau p_one 0)) in
  mkpp (l_scale (h00 m) (li_K w)) (l_scale (h01 m) (li_K w)) (l_scale (h10 m) (1 / li_K w)) (l_scale (h11 m) (1 / li_K w)).

(** frat.hpp:153-190 horner at a polynomial (coefficient form) *)
Definition p_compose {K : cring} (p q : poly K) : poly K :=
  match rev (p_coefs p) with
  | [] => p_const 0
  | c :: t => fold_left (fun r c => p_add (p_mul r q) (p_const c)) t (p_const c)
  end.
(** tod.cc:78-99 QMF(fp): H0 and H1 (G0 and G1 stay the empty polynomial, line 97) *)
Record qmf (K : cring) := mkqmf { q_h0 : poly K; q_h1 : poly K; q_g0 : poly K; q_g1 : poly K }.
Arguments mkqmf {K}. Arguments q_h0 {K}. Arguments q_h1 {K}. Arguments q_g0 {K}. Arguments q_g1 {K}.
Definition qmf_of {K : cring} (m : polyphase K) : res (qmf K) :=
  let md := (- Z.min (l_n0 (h00 m)) (Z.min (l_n0 (h01 m)) (Z.min (l_n0 (h10 m)) (l_n0 (h11 m)))))%Z in
  if (md <? 0)%Z then Exc else
  let sh (l : laurent K) := p_shift (l_pol l) (Z.to_nat md) in
  let z2 := p_mul p_z p_z in
  Ok (mkqmf (p_add (p_compose (sh (h00 m)) z2) (p_mul p_z (p_compose (sh (h01 m)) z2)))
            (p_add (p_compose (sh (h10 m)) z2) (p_mul p_z (p_compose (sh (h11 m)) z2))) p_empty p_empty).

(** ** The two wavelets *)
Local Open Scope R_scope.
(** tod.cc:153-170 lift_haar *)
Definition lift_haar : lift Rring :=
  let p := mklau (p_neg (K := Rring) p_one) 0 in
  let m := mklau (p_scale (K := Rring) p_one (1 / 2)) 0 in
  mklift (K := Rring) (sqrt 2) [mkelem p true; mkelem m false].
(** tod.cc:172-202 lift_db2; [a - p] is (-p) + a (frat.hpp:459-463) *)
Definition lift_db2 : lift Rring :=
  let s3 := sqrt 3 in
  let p1 := mkelem (mklau (p_scale (K := Rring) p_one s3) 0) false in
  let p2 := mkelem (mklau (p_addc (K := Rring) (p_neg (p_scale (K := Rring) p_z (s3 / 4))) (- (s3 - 2) / 4)) (-1)) true in
  let p3 := mkelem (mklau (p_neg (K := Rring) p_z) 0) false in
  mklift (K := Rring) ((s3 - 1) / sqrt 2) [p1; p2; p3].
