(** Model of core/src/fourier/hadamard.cc and core/src/fourier/goertzel.cc (exact arithmetic). *)
From Verif Require Import Base Filters_Model Polyphase_Model.
Local Open Scope cring_scope.

(** ** hadamard.cc:8-30, fwht *)
(** Lines 15-24: the pass for the half-width h; the loop on i (step 2h) runs ceil(n / 2h) times. *)
Definition fwht_pass {K : cring} (h : nat) (y : list K) : res (list K) :=
  let n := length y in
  loop ((n + 2 * h - 1) / (2 * h)) (fun b y =>
    loop h (fun t y =>
      let j := (2 * h * b + t)%nat in
      let* x1 := vget y j in
      let* y1 := vget y (j + h) in
      let* y := vset y j (x1 + y1) in
      vset y (j + h) (x1 - y1)) y) y.
(** Lines 13-28; h doubles while h < n. *)
Fixpoint fwht_loop {K : cfield} (fuel h : nat) (y : list K) : res (list K) :=
  match fuel with
  | O => Diverge
  | S f =>
      if (h <? length y)%nat then
        let* y := fwht_pass h y in
        fwht_loop f (2 * h) (map (fun v => v / cnat 2) y)
      else Ok y
  end.
Definition fwht {K : cfield} (x : list K) : res (list K) := fwht_loop (S (length x)) 1 x.

(** ** tableau.cc:543-554 and 1071-1079: M.block(r0, nr, c0, nc) = S, column by column
    through pointers (S is nr x nc, M has more than r0 + nr rows). *)
Definition set_block {A} (M : mat A) (r0 c0 : nat) (S : mat A) : res (mat A) :=
  let* d := loop (m_cols S) (fun c d => loop (m_rows S) (fun r d =>
              let* v := pget (m_data S) (r + c * m_rows S) in
              let k := (r0 + r + (c0 + c) * m_rows M)%nat in
              if (k <? length d)%nat then Ok (upd d k v) else UB) d) (m_data M) in
  Ok (mkmat (m_rows M) (m_cols M) d).
(** ** hadamard.cc:32-47, hadamard_matrice; the recursion on n/2 does not end for n <= 0. *)
Fixpoint hadamard {K : cring} (fuel n : nat) : res (mat K) :=
  match fuel with
  | O => Diverge
  | S f =>
      if (n =? 1)%nat then Ok (mkmat 1 1 [1]) else
      let h := (n / 2)%nat in
      let* Mp := hadamard f h in
      let M := mkmat n n (repeat 0 (n * n)) in
      let* M := set_block M 0 0 Mp in
      let* M := set_block M h 0 Mp in
      let* M := set_block M 0 h Mp in
      set_block M h h (mkmat (m_rows Mp) (m_cols Mp) (map (fun v => - v) (m_data Mp)))
  end.

(** ** goertzel.cc:7-29.  c stands for cos(2 pi f). *)
Definition g_step {K : cring} (c : K) (w : K * K) (x : K) : K * K :=
  (cnat 2 * c * fst w - snd w + x, fst w).
Definition g_energy {K : cring} (c : K) (w : K * K) : K :=
  fst w * fst w - cnat 2 * c * fst w * snd w + snd w * snd w.
Definition goertzel {K : cfield} (c : K) (x : list K) : K :=
  let en := fold_left cadd (map (fun v => v * v) x) 0 in
  let w := fold_left (g_step c) x (0, 0) in
  let w := (cnat 2 * c * fst w - snd w, fst w) in
  cnat 2 * g_energy c w / (en * cnat (length x)).

(** ** goertzel.cc:32-80, struct Goertzel *)
Record gz (K : cring) := mkgz { gz_w : K * K; gz_c : K; gz_cnt : nat; gz_R : nat; gz_mg : mg K }.
Arguments mkgz {K}. Arguments gz_w {K}. Arguments gz_c {K}. Arguments gz_cnt {K}. Arguments gz_R {K}. Arguments gz_mg {K}.
(** goertzel.cc:42-47 *)
Definition gz_init {K : cfield} (c : K) (R : nat) : gz K := mkgz (0, 0) c 0 R (mg_init R).
(** goertzel.cc:57-76, loop body: the sample and its mean energy; state (w, cnt) *)
Definition gz_sample {K : cfield} (c : K) (R : nat) (s : (K * K) * nat) (xe : K * K) : res (((K * K) * nat) * list K) :=
  let w := g_step c (fst s) (fst xe) in
  let cnt := (snd s + 1)%nat in
  if (R <=? cnt)%nat then
    let w' := (cnat 2 * c * fst w - snd w, fst w) in
    Ok ((0, 0), 0%nat, [cnat 2 * g_energy c w' / (cnat R * snd xe * cnat R)])
  else Ok (w, cnt, []).
(** goertzel.cc:50-78: y has (n + cnt) / R elements; the assertions check that
    exactly that many are written. *)
Definition gz_step {K : cfield} (s : gz K) (x : list K) : res (gz K * list K) :=
  if (gz_R s =? 0)%nat then UB else
  let ny := ((length x + gz_cnt s) / gz_R s)%nat in
  let* (m, en) := mg_step (gz_mg s) (map (fun v => v * v) x) in
  let* (wc, y) := flat_st (gz_sample (gz_c s) (gz_R s)) (gz_w s, gz_cnt s) (combine x en) in
  if (length y =? ny)%nat then Ok (mkgz (fst wc) (gz_c s) (snd wc) (gz_R s) m, y) else Exc.
