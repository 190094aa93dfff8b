(** Model of core/src/reechan/polyphase.cc, of the tap layout of
    core/src/reechan/hb.cc and of core/src/reechan/cic.cc (FiltreCIC), with the
    vector helpers they call (core/include/tsd/tsd.hpp).

    Arithmetic is exact (any commutative ring): float rounding and, for the CIC
    filter, int overflow are not modelled. *)
From Verif Require Import Base Filters_Model.
Local Open Scope cring_scope.

(** ** polyphase.cc:94-160 and 172-240: FiltreRIFDemiBande and FiltreRIFDecim have
    the same structure (delay line, counter [odd] / [cnt], one output every R
    samples) and differ by their dot product, a parameter here. *)
Record fdec (K : cring) := mkfdec {
  fd_fen : list K; fd_index : nat; fd_coefs : list K; fd_cnt : nat; fd_R : nat }.
Arguments mkfdec {K}. Arguments fd_fen {K}. Arguments fd_index {K}. Arguments fd_coefs {K}.
Arguments fd_cnt {K}. Arguments fd_R {K}.

(** polyphase.cc:163-169 (constructor; R = 2 for the half-band filter, 60-65) *)
Definition fdec_init {K : cring} (c : list K) (R : nat) : fdec K :=
  mkfdec (repeat 0 (length c)) 0 c 0 R.

(** polyphase.cc:211-223: the window is read from its oldest sample while the
    coefficients are read from the first one. *)
Definition corr_dot {K : cring} (fen coefs : list K) (index : nat) : res K :=
  let n := length coefs in
  let k1 := (n - index)%nat in
  let k2 := (n - k1)%nat in
  let* s1 := loop k1 (fun i s => let* f := pget fen (index + i) in
                                 let* c := pget coefs i in Ok (s + f * c)) 0 in
  loop k2 (fun i s => let* f := pget fen i in
                      let* c := pget coefs (k1 + i) in Ok (s + f * c)) s1.

(** polyphase.cc:112-138, half-band dot product: one coefficient out of two is
    read, then the centre of the window is added with weight 0.5 ([half]).  The
    loops advance their pointers by 2: iteration t is at offset 2t.  (Forming a
    pointer two past the end of the array, which the code does at the end of its
    loops, is not treated as an error.) *)
Definition hb_dot {K : cring} (half : K) (fen coefs : list K) (index : nat) : res K :=
  let n := length coefs in
  let k1 := (n - index)%nat in
  let k2 := (n - k1)%nat in
  let t1 := ((k1 + 1) / 2)%nat in
  let* s1 := loop t1 (fun t s => let* f := pget fen (index + 2 * t) in
                                 let* c := pget coefs (2 * t) in Ok (s + f * c)) 0 in
  let i := (2 * t1 - k1)%nat in
  let* s2 := loop ((k2 - i + 1) / 2)%nat
               (fun t s => let* f := pget fen (i + 2 * t) in
                           let* c := pget coefs (2 * t1 + 2 * t) in Ok (s + f * c)) s1 in
  let* m := imod (index + n / 2) n in
  let* f := vget fen m in
  Ok (s2 + half * f).

(** polyphase.cc:188-232 / 85-156, loop body: no output or one. *)
Definition fdec_sample {K : cring} (dot : list K -> list K -> nat -> res K)
    (s : fdec K) (x : K) : res (fdec K * list K) :=
  let* fen := vset (fd_fen s) (fd_index s) x in
  let* index := imod (fd_index s + 1) (length (fd_coefs s)) in
  if (fd_cnt s <? fd_R s - 1)%nat
  then Ok (mkfdec fen index (fd_coefs s) (fd_cnt s + 1) (fd_R s), [])
  else let* y := dot fen (fd_coefs s) index in
       Ok (mkfdec fen index (fd_coefs s) 0 (fd_R s), [y]).

(** polyphase.cc:171-234 / 67-158.  The outputs are written through a raw
    pointer into a vector of (n + cnt) / R elements: writing another number of
    samples would be out of bounds or leave garbage, counted as UB. *)
Definition fdec_step {K : cring} (dot : list K -> list K -> nat -> res K)
    (s : fdec K) (x : list K) : res (fdec K * list K) :=
  if (length (fd_coefs s) =? 0)%nat then Exc else
  if (fd_R s =? 0)%nat then UB else
  let ny := ((length x + fd_cnt s) / fd_R s)%nat in
  let* (s', y) := flat_st (fdec_sample dot) s x in
  if (length y =? ny)%nat then Ok (s', y) else UB.

(** filtre_rif_decim and filtre_rif_demi_bande *)
Definition rif_decim_step {K : cring} := fdec_step (K := K) corr_dot.
Definition hb_step {K : cring} (half : K) := fdec_step (hb_dot half).

(** ** polyphase.cc:243-325, FiltreRIFUps *)
Record fups (K : cring) := mkfups { fu_fen : list K; fu_index : nat; fu_coefs : list K; fu_R : nat }.
Arguments mkfups {K}. Arguments fu_fen {K}. Arguments fu_index {K}. Arguments fu_coefs {K}. Arguments fu_R {K}.
(** polyphase.cc:252-274; [K % R] is undefined for R = 0. *)
Definition fups_init {K : cring} (c : list K) (R : nat) : res (fups K) :=
  let coefs := map (fun v => v * cnat R) c in
  let* r := imod (length coefs) R in
  let coefs := if (r =? 0)%nat then coefs else coefs ++ repeat 0 (R - r) in
  Ok (mkfups (repeat 0 (length coefs / R)) 0 coefs R).
(** polyphase.cc:302-325: output [i] of the R outputs computed for one input *)
Definition ups_dot {K : cring} (fen coefs : list K) (index R i : nat) : res K :=
  let L := (length coefs / R)%nat in
  let k1 := (L - index)%nat in
  let k2 := (L - k1)%nat in
  let* s1 := loop k1 (fun t s => let* f := pget fen (index + t) in
                                 let* c := pget coefs ((R - 1) - i + t * R) in Ok (s + f * c)) 0 in
  loop k2 (fun t s => let* f := pget fen t in
                      let* c := pget coefs ((R - 1) - i + (k1 + t) * R) in Ok (s + f * c)) s1.
Fixpoint ups_outs {K : cring} (fen coefs : list K) (index R n : nat) : res (list K) :=
  match n with
  | O => Ok []
  | S i => let* l := ups_outs fen coefs index R i in
           let* y := ups_dot fen coefs index R i in Ok (l ++ [y])
  end.
(** polyphase.cc:293-327, loop body *)
Definition fups_sample {K : cring} (s : fups K) (x : K) : res (fups K * list K) :=
  let* fen := vset (fu_fen s) (fu_index s) x in
  let* index := imod (fu_index s + 1) (length (fu_coefs s) / fu_R s) in
  let* y := ups_outs fen (fu_coefs s) index (fu_R s) (fu_R s) in
  Ok (mkfups fen index (fu_coefs s) (fu_R s), y).
(** polyphase.cc:276-328 *)
Definition fups_step {K : cring} (s : fups K) (x : list K) : res (fups K * list K) :=
  if (length (fu_coefs s) =? 0)%nat then Exc else flat_st fups_sample s x.

(** ** Matrices, column-major as TabT (tableau.hpp): element (i,j) is at i + j * rows *)
Record mat (A : Type) := mkmat { m_rows : nat; m_cols : nat; m_data : list A }.
Arguments mkmat {A}. Arguments m_rows {A}. Arguments m_cols {A}. Arguments m_data {A}.
Definition m_at {A} (m : mat A) (i j : nat) : option A :=
  if ((i <? m_rows m) && (j <? m_cols m))%nat then nth_error (m_data m) (i + j * m_rows m) else None.

(** polyphase.cc:16-42, forme_polyphase: [n % M] is evaluated before the test for
    an empty vector. *)
Definition forme_polyphase {K : cring} (x : list K) (M : nat) : res (mat K) :=
  let* r := imod (length x) M in
  if (length x =? 0)%nat then Ok (mkmat 0 0 []) else
  let x2 := if (r =? 0)%nat then x else x ++ repeat 0 (M - r) in
  Ok (mkmat M (length x2 / M) x2).
(** polyphase.cc:45-49, iforme_polyphase *)
Definition iforme_polyphase {A} (X : mat A) : list A := firstn (m_rows X * m_cols X) (m_data X).

(** ** hb.cc:63-77, tap layout of design_rif_demi_bande from the equiripple
    filter [g] of (n-1)/2 + 1 taps (its design is not modelled). *)
Definition hb_layout {K : cring} (half : K) (g : list K) (n : nat) : res (list K) :=
  let m := ((n - 1) / 2)%nat in
  fold_right (fun k acc => let* l := acc in
     if (k =? m)%nat then Ok (half :: l)
     else if (k mod 2 =? 1)%nat then Ok (0 :: l)
     else let* v := vget g (k / 2) in Ok (half * v :: l)) (Ok []) (seq 0 n).
(** hb.cc:26-37, 77-78: [des] stands for design_rif_eq(m + 1, D, W); for even m the
    design is done for n - 2 taps and a zero is added at each end. *)
Definition design_hb {K : cring} (half : K) (des : nat -> list K) (n : nat) : res (list K) :=
  if (n mod 2 =? 0)%nat then Exc else
  let m := ((n - 1) / 2)%nat in
  let modd := (m mod 2 =? 1)%nat in
  let n' := if modd then n else (n - 2)%nat in
  let m' := if modd then m else (m - 1)%nat in
  let g := des (m' + 1)%nat in
  if negb (length g =? m' + 1)%nat then Exc else
  let* h := hb_layout half g n' in
  Ok (if modd then h else (0 :: h) ++ [0]).

(** ** tsd.hpp:264-276, cumsum *)
Fixpoint cumsum_from {K : cring} (cs : K) (x : list K) : list K :=
  match x with [] => [] | a :: t => (cs + a) :: cumsum_from (cs + a) t end.
Definition cumsum {K : cring} (x : list K) : list K := cumsum_from 0 x.
(** tsd.hpp:237-241, diff; for an empty vector tail(-1) throws. *)
Fixpoint diff_aux {K : cring} (p : K) (x : list K) : list K :=
  match x with [] => [] | a :: t => (a - p) :: diff_aux a t end.
Definition diff {K : cring} (x : list K) : res (list K) :=
  match x with [] => Exc | a :: t => Ok (diff_aux a t) end.
(** tsd.hpp:368-375, sousech *)
Definition sousech {A} (x : list A) (R : nat) : res (list A) :=
  if (R =? 0)%nat then UB else
  fold_right (fun i acc => let* l := acc in let* v := vget x (i * R) in Ok (v :: l)) (Ok [])
    (seq 0 (length x / R)).
(** tsd.hpp:394-401, surech *)
Definition surech {K : cring} (x : list K) (R : nat) : res (list K) :=
  loop (length x) (fun i y => let* v := vget x i in vset y (i * R) v) (repeat 0 (length x * R)).

(** ** cic.cc:13-95, FiltreCIC (M = 1, the only value the constructor accepts).
    The output gain is left out: outputs are before the final multiplication by
    [gain] (lines 65, 94). *)
Record cic (K : cring) := mkcic { ci_N : nat; ci_R : nat; ci_mem : list K }.
Arguments mkcic {K}. Arguments ci_N {K}. Arguments ci_R {K}. Arguments ci_mem {K}.
Definition cic_init {K : cring} (N R : nat) : cic K := mkcic N R (repeat 0 N).
(** N times y = cumsum(y) (51-52, 91-92) *)
Fixpoint integrate {K : cring} (N : nat) (x : list K) : list K :=
  match N with O => x | S n => integrate n (cumsum x) end.
(** cic.cc:56-64: comb [i] is fed by comb [i-1] and keeps its last input. *)
Fixpoint combs {K : cring} (mem : list K) (x : list K) : res (list K * list K) :=
  match mem with
  | [] => Ok ([], x)
  | m :: ms =>
      let* d := diff (m :: x) in
      let* l := vgetZ x (Z.of_nat (length x) - 1) in
      let* (ms', y) := combs ms d in Ok (l :: ms', y)
  end.
(** cic.cc:44-67, decimation *)
Definition cic_decim {K : cring} (s : cic K) (x : list K) : res (cic K * list K) :=
  let* xd := sousech (integrate (ci_N s) x) (ci_R s) in
  let* (mem, y) := combs (ci_mem s) xd in
  Ok (mkcic (ci_N s) (ci_R s) mem, y).
(** cic.cc:73-81: here every comb keeps the last sample of the *input* x. *)
Fixpoint combs_i {K : cring} (x mem xi : list K) : res (list K * list K) :=
  match mem with
  | [] => Ok ([], xi)
  | m :: ms =>
      let* d := diff (m :: xi) in
      let* l := vgetZ x (Z.of_nat (length xi) - 1) in
      let* (ms', y) := combs_i x ms d in Ok (l :: ms', y)
  end.
(** cic.cc:69-95, interpolation *)
Definition cic_interp {K : cring} (s : cic K) (x : list K) : res (cic K * list K) :=
  let* (mem, xi) := combs_i x (ci_mem s) x in
  let* u := surech xi (ci_R s) in
  Ok (mkcic (ci_N s) (ci_R s) mem, integrate (ci_N s) u).
