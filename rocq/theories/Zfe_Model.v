(** Model of the zero-forcing equaliser of core/src/telecom/egalisation.cc:181-237,
    over any commutative ring. *)
From Verif Require Import Base.

Section Z.
Context {K : cring}.
Open Scope cring_scope.

(** F(i,j) = v: column-major storage, no bounds check (tableau.hpp:1141-1144); a write
    outside the block is undefined behaviour *)
Definition mset (rows : nat) (F : list K) (i j : nat) (v : K) : res (list K) :=
  let p := (i + j * rows)%nat in if p <? length F then Ok (upd F p v) else UB.
(** egalisation.cc:181-208 égaliseur_zfe_matrice *)
Definition zfe_matrice (h : list K) (n : nat) : res (list K) :=
  let m := length h in
  let rows := (n + m - 1)%nat in
  let* F := loop m (fun i F => loop (i + 1) (fun k F => let* v := vget h (i - k) in mset rows F i k v) F) (repeat 0 (rows * n)) in
  let* F := loop (n - m) (fun i' F => let i := (m + i')%nat in
              loop m (fun k F => let* v := vget h (m - 1 - k) in mset rows F i (i + 1 - m + k) v) F) F in
  loop (m - 1) (fun i' F => let i := (n + i')%nat in
    loop (m - 1 - i') (fun j' F => let j := (1 + j')%nat in let* v := vget h (j + i') in mset rows F i (n - j) v) F) F.
(** egalisation.cc:210-233 égaliseur_zfe; solve stands for Eigen's
    colPivHouseholderQr().solve, and takes the matrix, its number of rows and the
    target vector; round((m + n) / 2.0f) rounds halves up; the write of the target
    outside its vector is undefined (Eigen assertion in debug builds) *)
Definition zfe (solve : list K -> nat -> list K -> list K) (h : list K) (n : nat) : res (list K) :=
  let m := length h in
  if (n <? m)%nat then Exc else
  let* F := zfe_matrice h n in
  let d := ((m + n + 1) / 2)%nat in
  let delta := repeat 0 (n + m - 1) in
  if (d <? n + m - 1)%nat then Ok (solve F (n + m - 1)%nat (upd delta d 1)) else UB.
End Z.
