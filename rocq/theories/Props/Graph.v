(** Properties C01-C07: Opm::AssembledConnections.  The specification they use
    is Spec/GraphSpec.v. *)
From Coq Require Import QArith Qcanon.
From Verif.Model Require Import AssembledConnections.
From Verif.Spec Require Import GraphSpec.
From Verif.Proofs Require Import Util AConn ExactNum GraphProps.

(** [add_all g l]: the object [g] after the addConnection calls [l];
    [ac_run g h]: after a history [h] of addConnection and compress calls, in
    which the caller catches exceptions; [hist_conns h]: all connections added
    in [h]; they are defined at the top of Proofs/AConn.v. *)

(** C01 *)
Theorem C01_compress_exact_csr (N : Num) (l : list connection) (n : Z) :
  unweighted l ∨ weighted l → indices_ok l →
  0 ≤ n → Forall (λ x : connection, x.1.1 < n) l →
  ∃ g, ac_compress (add_all ac_new l) n = Ok (g, None) ∧
       is_csr n (λ r c, (r, c) ∈ map fst l) (ac_start g) (ac_neigh g).
Proof. exact (compress_exact_csr N l n). Qed.

(** C02 *)
Theorem C02_weights_in_insertion_order (N : Num) (l : list connection) (n : Z) :
  weighted l → indices_ok l → 0 ≤ n → Forall (λ x : connection, x.1.1 < n) l →
  ∃ g, ac_compress (add_all ac_new l) n = Ok (g, None) ∧
       is_weights n (λ r c, sum_left (weights_at l r c)) (ac_start g) (ac_neigh g) (ac_weight g).
Proof. exact (compress_weights N l n). Qed.

(** C03 *)
Theorem C03_order_independent (N : Num) (l l' : list connection) (n : Z) :
  unweighted l ∨ weighted l → indices_ok l → l ≡ₚ l' →
  0 ≤ n → Forall (λ x : connection, x.1.1 < n) l →
  ∃ g g', ac_compress (add_all ac_new l) n = Ok (g, None) ∧
          ac_compress (add_all ac_new l') n = Ok (g', None) ∧
          ac_start g = ac_start g' ∧ ac_neigh g = ac_neigh g'.
Proof. exact (compress_perm N l l' n). Qed.

Theorem C03_order_independent_weights (l l' : list (@connection exact)) (n : Z) :
  weighted l → indices_ok l → l ≡ₚ l' →
  0 ≤ n → Forall (λ x : connection, x.1.1 < n) l →
  ∃ g g', ac_compress (add_all ac_new l) n = Ok (g, None) ∧
          ac_compress (add_all ac_new l') n = Ok (g', None) ∧
          ac_weight g = ac_weight g'.
Proof. exact (compress_perm_weights l l' n). Qed.

(** C04: the outcome of compress on a new object, completely. *)
Theorem C04_compress_outcome (N : Num) (l : list connection) (n : Z) :
  indices_ok l → 0 ≤ n →
  let g := add_all ac_new l in
  (¬ unweighted l ∧ ¬ weighted l ∧ ac_compress g n = Ok (g, Some LogicError)) ∨
  ((unweighted l ∨ weighted l) ∧ Exists (λ x : connection, n ≤ x.1.1) l ∧
     ac_compress g n = Ok (g, Some InvalidArgument)) ∨
  ((unweighted l ∨ weighted l) ∧ Forall (λ x : connection, x.1.1 < n) l ∧
     ∃ g', ac_compress g n = Ok (g', None)).
Proof. exact (compress_outcome N l n). Qed.

(** C04: on every reachable object a call that throws changes nothing, and a
    mixed list of pending connections is always rejected with logic_error. *)
Theorem C04_rejection_changes_nothing (N : Num) (h : list ac_op) :
  indices_ok (hist_conns h) → Forall op_ok h →
  ∃ g, ac_run ac_new h = Ok g ∧
    (∀ l n, ¬ unweighted l → ¬ weighted l → is_compressed g → 
       ac_compress (add_all g l) n = Ok (add_all g l, Some LogicError)) ∧
    (∀ n, 0 ≤ n → ∃ g' e, ac_compress g n = Ok (g', e) ∧ (e ≠ None → g' = g)).
Proof. exact (rejection_changes_nothing N h). Qed.

(** C05 as documented ("effectively create a new graph") is false: clear() keeps
    the largest indices seen, so a smaller second graph is rejected ... *)
Theorem C05_reuse_refuted (N : Num) :
  ∃ (l1 l2 : list connection) (n1 n2 : Z) g1,
    ac_compress (add_all ac_new l1) n1 = Ok (g1, None) ∧
    ac_compress (add_all g1 l2) n2 = Ok (add_all g1 l2, Some InvalidArgument) ∧
    ∃ g2, ac_compress (add_all ac_new l2) n2 = Ok (g2, None).
Proof. exact (reuse_refuted N). Qed.

(** ... and an unweighted second graph keeps the weights of the first. *)
Theorem C05_reuse_weights_refuted :
  ∃ (l1 l2 : list (@connection exact)) (n : Z) g1 g2 g2',
    ac_compress (add_all ac_new l1) n = Ok (g1, None) ∧
    ac_compress (add_all g1 l2) n = Ok (g2, None) ∧
    ac_compress (add_all ac_new l2) n = Ok (g2', None) ∧
    ac_weight g2 ≠ ac_weight g2' ∧ ac_neigh g2 = ac_neigh g2'.
Proof. exact reuse_weights_refuted. Qed.

(** C05, what does hold: reuse gives the same graph as a new object whenever no
    row index ever added to the object exceeds the new number of rows; the
    weights agree if the new graph is weighted. *)
Theorem C05_reuse_partial (N : Num) (h : list ac_op) (l : list connection) (n : Z) :
  indices_ok (hist_conns h) → Forall op_ok h →
  unweighted l ∨ weighted l → indices_ok l → 0 ≤ n →
  Forall (λ x : connection, x.1.1 < n) l → Forall (λ x : connection, x.1.1 < n) (hist_conns h) →
  ∃ g, ac_run ac_new h = Ok g ∧
    (is_compressed g →
     ∃ g1 g2, ac_compress (add_all g l) n = Ok (g1, None) ∧
            ac_compress (add_all ac_new l) n = Ok (g2, None) ∧
            ac_start g1 = ac_start g2 ∧ ac_neigh g1 = ac_neigh g2 ∧
            (weighted l → l ≠ [] → ac_weight g1 = ac_weight g2)).
Proof. exact (reuse_partial N h l n). Qed.

(** C05, the whole behaviour: after any history of calls that leaves the object
    compressed, every further list of connections [l] and every [n] have one of
    three outcomes.  A mixed list is rejected as on a new object.  A non-empty
    list is rejected if a row index of the list or of the history reaches [n].
    Otherwise the graph is the one a new object would give, where an empty list
    yields as many rows as the history needs even if [n] is smaller; without
    weights in [l] the old weights stay in place. *)
Theorem C05_reuse_exactly (N : Num) (h : list ac_op) (l : list connection) (n : Z) :
  indices_ok (hist_conns h) → Forall op_ok h → indices_ok l → 0 ≤ n →
  ∃ g, ac_run ac_new h = Ok g ∧ (is_compressed g →
    (¬ unweighted l ∧ ¬ weighted l ∧
       ac_compress (add_all g l) n = Ok (add_all g l, Some LogicError)) ∨
    ((unweighted l ∨ weighted l) ∧ l ≠ [] ∧ Exists (λ x : connection, n ≤ x.1.1) (hist_conns h ++ l) ∧
       ac_compress (add_all g l) n = Ok (add_all g l, Some InvalidArgument)) ∨
    ((unweighted l ∨ weighted l) ∧ (l = [] ∨ Forall (λ x : connection, x.1.1 < n) (hist_conns h ++ l)) ∧
       ∀ m, rows_needed n (hist_conns h) m →
       ∃ g1 g2, ac_compress (add_all g l) n = Ok (g1, None) ∧
         ac_compress (add_all ac_new l) m = Ok (g2, None) ∧
         ac_start g1 = ac_start g2 ∧ ac_neigh g1 = ac_neigh g2 ∧
         ac_weight g1 = if decide (omap snd l = []) then ac_weight g else ac_weight g2)).
Proof. exact (reuse_exactly N h l n). Qed.

(** C06 *)
Theorem C06_cell_neighbourhood (N : Num) (l : list connection) (n r : Z) :
  weighted l → indices_ok l → Forall (λ x : connection, x.1.1 < n) l → 0 ≤ r < n →
  ∃ g nb, ac_compress (add_all ac_new l) n = Ok (g, None) ∧
    ac_cell_neighbourhood g r = Ok (map (λ c, (c, sum_left (weights_at l r c))) nb) ∧
    StronglySorted Z.lt nb ∧ (∀ c, c ∈ nb ↔ (r, c) ∈ map fst l).
Proof. exact (cell_neighbourhood_exact N l n r). Qed.

Theorem C06_unweighted_is_caught (N : Num) (l : list connection) (n r : Z) :
  unweighted l → l ≠ [] → indices_ok l → Forall (λ x : connection, x.1.1 < n) l → 0 ≤ r < n →
  ∃ g, ac_compress (add_all ac_new l) n = Ok (g, None) ∧ ac_cell_neighbourhood g r = AssertFail.
Proof. exact (cell_neighbourhood_unweighted N l n r). Qed.

(** C07: every entry is written once, row by row, columns increasing; the
    precision is restored. *)
Theorem C07_print_partial (N : Num) (l : list connection) (n sci : Z) (st : fmt) :
  weighted l → indices_ok l → 0 ≤ n < 2 ^ 31 → Forall (λ x : connection, x.1.1 < n) l →
  ∃ g cols st', ac_compress (add_all ac_new l) n = Ok (g, None) ∧
    ac_print sci st g =
      Ok (seqZ 0 n ≫= (λ r, map (λ c, (r, c, sum_left (weights_at l r c))) (cols r)), st') ∧
    (∀ r, 0 ≤ r < n → StronglySorted Z.lt (cols r) ∧ ∀ c, c ∈ cols r ↔ (r, c) ∈ map fst l) ∧
    f_prec st' = f_prec st ∧ f_flags st' = Z.lor (f_flags st) sci.
Proof. exact (print_exact N l n sci st). Qed.

(** C07: the flags are not restored. *)
Theorem C07_flags_refuted (N : Num) :
  ∃ (g : aconn) (sci : Z) (st : fmt) out st',
    ac_print sci st g = Ok (out, st') ∧ f_flags st' ≠ f_flags st.
Proof. exact (flags_refuted N). Qed.

(** ** Instances meeting the hypotheses *)
Definition ex_conns : list (@connection exact) :=
  [(0, 2, Some (Fin 1%Qc)); (2, 0, Some (Fin 1%Qc)); (0, 2, Some (Fin 1%Qc)); (0, 1, Some (Fin 1%Qc))].
Example ex_conns_ok :
  weighted ex_conns ∧ indices_ok ex_conns ∧ Forall (λ x : connection, x.1.1 < 4) ex_conns ∧
  ex_conns ≡ₚ rev ex_conns.
Proof.
  split_and!; [| | |apply Permutation_rev];
    repeat constructor; unfold int_index; cbn; try lia; eauto.
Qed.
Example ex_hist_ok :
  let h := map add_op ex_conns ++ [AcCompress 4] in
  indices_ok (hist_conns h) ∧ Forall op_ok h ∧
  Forall (λ x : connection, x.1.1 < 4) (hist_conns h) ∧
  match ac_run ac_new h with Ok g => is_compressed g | _ => False end.
Proof.
  split_and!; [| | |reflexivity]; repeat constructor; unfold int_index; cbn; try lia; eauto.
Qed.

(** Each outcome of C05_reuse_exactly occurs after [ex_conns]; compressing the
    emptied object with one row gives three. *)
Example C05_outcomes :
  match ac_run ac_new (map add_op ex_conns ++ [AcCompress 4]) with
  | Ok g =>
      match ac_compress (add_all g [(0, 1, None); (1, 0, Some (Fin 1%Qc))]) 2,
            ac_compress (add_all g [(0, 1, None)]) 2,
            ac_compress (add_all g [(0, 1, None)]) 3,
            ac_compress g 1 with
      | Ok (_, Some LogicError), Ok (_, Some InvalidArgument), Ok (g1, None), Ok (g2, None) =>
          ac_start g1 = [0; 1; 1; 1] ∧ length (ac_weight g1) = 3%nat ∧ ac_start g2 = [0; 0; 0; 0]
      | _, _, _, _ => False
      end
  | _ => False
  end.
Proof. vm_compute. done. Qed.
Example C05_rows_needed : rows_needed 1 ex_conns 3 ∧ rows_needed 4 ex_conns 4.
Proof.
  split; (split; [lia|]); (split; [repeat constructor; cbn; lia|]); [right|by left].
  apply Exists_cons_tl, Exists_cons_hd. done.
Qed.

Print Assumptions C01_compress_exact_csr.
Print Assumptions C02_weights_in_insertion_order.
Print Assumptions C03_order_independent.
Print Assumptions C03_order_independent_weights.
Print Assumptions C04_compress_outcome.
Print Assumptions C04_rejection_changes_nothing.
Print Assumptions C05_reuse_refuted.
Print Assumptions C05_reuse_weights_refuted.
Print Assumptions C05_reuse_partial.
Print Assumptions C05_reuse_exactly.
Print Assumptions C06_cell_neighbourhood.
Print Assumptions C06_unweighted_is_caught.
Print Assumptions C07_print_partial.
Print Assumptions C07_flags_refuted.
