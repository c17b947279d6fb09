(** What a compressed sparse row (CSR) representation of a graph is, stated
    without reference to the code that builds one. *)
From Coq Require Export ZArith Bool.
From stdpp Require Export base list list_numbers sorting.
From Verif.Model Require Import Num.
Open Scope Z_scope.

(** Elements [b, e) of an array. *)
Definition slice {A} (l : list A) (b e : Z) : list A :=
  take (Z.to_nat (e - b)) (drop (Z.to_nat b) l).

(** [start]/[neigh] is the CSR form of the graph on rows [0..n) whose edge
    relation is [E]: rows are delimited by [start], and each row lists its
    columns once, in increasing order. *)
Record is_csr (n : Z) (E : Z → Z → Prop) (start neigh : list Z) : Prop := {
  csr_n : 0 ≤ n;
  csr_len : Z.of_nat (length start) = n + 1;
  csr_first : start !! O = Some 0;
  csr_last : last start = Some (Z.of_nat (length neigh));
  csr_row : ∀ r, 0 ≤ r < n → ∃ b e,
    start !! Z.to_nat r = Some b ∧ start !! Z.to_nat (r + 1) = Some e ∧
    0 ≤ b ≤ e ∧ e ≤ Z.of_nat (length neigh) ∧
    StronglySorted Z.lt (slice neigh b e) ∧
    ∀ c, c ∈ slice neigh b e ↔ E r c
}.

(** The weights [w] are aligned with [neigh] and the entry of row [r] and
    column [c] has weight [W r c]. *)
Record is_weights {V} (n : Z) (W : Z → Z → V) (start neigh : list Z) (w : list V) : Prop := {
  wt_len : length w = length neigh;
  wt_val : ∀ r b e k c, 0 ≤ r < n →
    start !! Z.to_nat r = Some b → start !! Z.to_nat (r + 1) = Some e →
    b ≤ Z.of_nat k < e → neigh !! k = Some c → w !! k = Some (W r c)
}.

(** Left-to-right sum starting from zero. *)
Definition sum_left {N : Num} (l : list num) : num := foldl nadd n0 l.

(** A connection as handed to addConnection: row, column and, for the weighted
    overload, the weight. *)
Definition connection {N : Num} : Type := Z * Z * option num.

Definition unweighted {N : Num} (l : list connection) : Prop := Forall (λ x, x.2 = None) l.
Definition weighted {N : Num} (l : list connection) : Prop := Forall (λ x, is_Some x.2) l.

(** Non-negative [int] indices such that index + 1 is still an [int]. *)
Definition int_index (x : Z) : Prop := 0 ≤ x < 2 ^ 31 - 1.
Definition indices_ok {N : Num} (l : list connection) : Prop :=
  Forall (λ x, int_index x.1.1 ∧ int_index x.1.2) l.

(** The weights given for entry ([r], [c]), in insertion order. *)
Definition weights_at {N : Num} (l : list connection) (r c : Z) : list num :=
  omap (λ x : connection, if decide (x.1 = (r, c)) then x.2 else None) l.

(** [m] is the least number of rows that is at least [n] and exceeds every row
    index of [l]. *)
Definition rows_needed {N : Num} (n : Z) (l : list connection) (m : Z) : Prop :=
  n ≤ m ∧ Forall (λ x : connection, x.1.1 < m) l ∧
  (m = n ∨ Exists (λ x : connection, x.1.1 + 1 = m) l).
