(** Model of the adaptive equaliser EgaliseurRIF, core/src/telecom/egalisation.cc:29-171,
    over the real numbers (complex numbers as pairs, no rounding). *)
From Coq Require Import Reals.
From Verif Require Import Base Demod_Model.
Open Scope R_scope.

Definition C := (R * R)%type.
Definition cplus (a b : C) : C := (fst a + fst b, snd a + snd b).
Definition cminus (a b : C) : C := (fst a - fst b, snd a - snd b).
(** egalisation.cc:29-54 the members fixed at construction *)
Record ecfg := { e_w : wave; e_K : nat; e_al : R; e_N1 : nat; e_N2 : nat; e_dfe : bool; e_cma : bool }.
Record est := { s_h : list R; s_g : list R; s_wnd : list C; s_deci : list C; s_cnt : nat }.

(** egalisation.cc:89-97 the constructor *)
Definition egal_init (c : ecfg) : est :=
  {| s_h := repeat 0 (e_N1 c - 1) ++ [1];
     s_g := if e_dfe c then repeat 0 (e_N2 c) else [];
     s_wnd := repeat (0, 0) (e_N1 c);
     s_deci := if e_dfe c then repeat (0, 0) (e_N2 c) else [];
     s_cnt := 0 |}.

(** (h * wnd).somme() with real coefficients *)
Definition wsum (h : list R) (w : list C) : C :=
  fold_right (fun p acc => cplus (fst p * fst (snd p), fst p * snd (snd p)) acc) (0, 0) (combine h w).
(** h += a * real(wnd * conj(z)) *)
Definition adapt (a : R) (z : C) (h : list R) (w : list C) : list R :=
  map (fun p => fst p + a * (fst (snd p) * fst z + snd (snd p) * snd z)) (combine h w).
(** v.head(n-1) = v.tail(n-1); v(n-1) = x.  For wnd the two blocks overlap and the copy
    is a memcpy (tableau.cc:1065), formally undefined (C36); the result of memmove is
    assumed here. *)
Definition shift_in (w : list C) (x : C) : list C := skipn 1 w ++ [x].

(** egalisation.cc:108-166 one turn of the loop of step_interne: the outputs are the
    pairs (sortie, e) appended to y and err *)
Definition egal_one (c : ecfg) (s : est) (x : C) : res (est * list (C * R)) :=
  let wnd := shift_in (s_wnd s) x in
  let cnt := if (1 <? e_K c)%nat then ((s_cnt s + 1) mod (e_K c))%nat else s_cnt s in
  if andb (1 <? e_K c)%nat (negb (cnt =? 0)%nat) then
    Ok ({| s_h := s_h s; s_g := s_g s; s_wnd := wnd; s_deci := s_deci s; s_cnt := cnt |}, [])
  else
  let retro := if e_dfe c then wsum (s_g s) (s_deci s) else (0, 0) in
  let sortie := if e_dfe c then cplus (wsum (s_h s) wnd) retro else wsum (s_h s) wnd in
  let* dec := if orb (negb (e_cma c)) (e_dfe c) then
      let* i := symbole_plus_proche (e_w c) 0 sortie in lis_symbole (e_w c) 0 i
    else Ok (0, 0) in
  let '(h', g', e) :=
    if e_cma c then
      let e := 1 - (fst sortie * fst sortie + snd sortie * snd sortie) in
      (adapt (e_al c * e) sortie (s_h s) wnd,
       if e_dfe c then adapt (e_al c * e) retro (s_g s) (s_deci s) else s_g s, e)
    else
      let ec := cminus dec sortie in
      (adapt (e_al c) ec (s_h s) wnd,
       if e_dfe c then adapt (e_al c) ec (s_g s) (s_deci s) else s_g s,
       sqrt (fst ec * fst ec + snd ec * snd ec)) in
  let deci := if e_dfe c then shift_in (s_deci s) dec else s_deci s in
  Ok ({| s_h := h'; s_g := g'; s_wnd := wnd; s_deci := deci; s_cnt := cnt |}, [(sortie, e)]).
(** egalisation.cc:102-107, 168-169: y and err truncated to the number of outputs *)
Definition egal_step (c : ecfg) (s : est) (x : list C) : res (est * list (C * R)) := flat_st (egal_one c) s x.
