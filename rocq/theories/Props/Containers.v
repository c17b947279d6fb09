(** Properties C16-C22 and C52: the small value classes. *)
From Coq Require Import QArith Qcanon String Ascii.
From Verif.Model Require Import Containers Solution RandomVector.
From Verif.Spec Require Import ContainerSpec.
From Verif.Proofs Require Import Util OMapFacts ContainerProps.
Open Scope Z_scope.

(** ** C16: ConnectivityGraph *)
(** The full claim, for tables without negative entries. *)
Theorem C16_accepts_partial (n : Z) (cells : list Z) :
  0 ≤ n → Forall (λ c, 0 ≤ c) cells →
  (cg_make n cells = Throw LogicError ↔ Z.Odd (zlen cells) ∨ Exists (λ c, ¬ (0 ≤ c < n)) cells) ∧
  (cg_make n cells ≠ Throw LogicError → ∃ g, cg_make n cells = Ok g).
Proof. exact (graph_outcome n cells). Qed.

(** Whatever is accepted is reproduced. *)
Theorem C16_reproduces (n : Z) (ps : list (Z * Z)) g :
  0 ≤ n < 2 ^ 31 → cg_make n (flatten_pairs ps) = Ok g →
  cg_num_cells g = n ∧ cg_num_connections g = zlen ps ∧
  ∀ k p, ps !! k = Some p → cg_connection g (Z.of_nat k) = Ok p.
Proof. exact (graph_table n ps g). Qed.

(** Missing from the first: negative cell indices are not rejected. *)
Theorem C16_negative_refuted :
  ∃ n cells g, 0 ≤ n < 2 ^ 31 ∧ Exists (λ c, ¬ (0 ≤ c < n)) cells ∧ cg_make n cells = Ok g.
Proof.
  exists 2, [0; -1]. eexists. split; [lia|]. split; [|reflexivity].
  apply Exists_cons_tl, Exists_cons_hd. lia.
Qed.

(** What is rejected, for every table and every count: tables of odd size and
    tables with an index at or above the count, nothing else. *)
Theorem C16_accepts_exactly (n : Z) (cells : list Z) :
  (cg_make n cells = Throw LogicError ↔ Z.Odd (zlen cells) ∨ Exists (λ c, n ≤ c) cells) ∧
  (cg_make n cells ≠ Throw LogicError → ∃ g, cg_make n cells = Ok g).
Proof.
  destruct (cg_make_outcome n cells) as [[E H]|[E [He Hf]]]; rewrite E.
  - split; [by split|done].
  - split; [|eauto]. split; [done|]. intros [Ho|(c & Hc & Hle)%Exists_exists]; exfalso; [by apply (Z.Even_Odd_False (zlen cells))|].
    rewrite Forall_forall in Hf. specialize (Hf c Hc). lia.
Qed.

Example C16_ex_ok : cg_make 3 (flatten_pairs [(0, 1); (2, 1)]) = Ok (mkCgraph 3 [0; 1; 2; 1]).
Proof. reflexivity. Qed.
Example C16_ex_bad : cg_make 2 (flatten_pairs [(0, 1); (2, 1)]) = Throw LogicError.
Proof. reflexivity. Qed.

(** ** C17, C18: ConnectionValues *)
(** [cv_writes v ws]: the object after the writes [ws], the exceptions of the
    rejected ones being caught. *)
Theorem C17_two_dimensional_store (N : Num) nc np (ws : list (Z * Z * num)) :
  0 ≤ nc → 0 ≤ np → nc * np < 2 ^ 64 → Forall is_size2 ws →
  ∃ v, cv_writes (cv_make nc np) ws = Ok v ∧
    cv_num_connections v = nc ∧ cv_num_phases v = np ∧
    ∀ c p, 0 ≤ c < nc ∧ 0 ≤ p < np → cv_get v c p = Ok (last_write n0 ws (c, p)).
Proof. exact (cv_store nc np ws). Qed.

Theorem C18_range_partial (N : Num) nc np (ws : list (Z * Z * num)) v c p x :
  0 ≤ nc → 0 ≤ np → nc * np < 2 ^ 64 → Forall is_size2 ws →
  cv_writes (cv_make nc np) ws = Ok v → 0 ≤ c → 0 ≤ p →
  (cv_num_connections v ≤ c ∨ cv_num_phases v ≤ p →
     cv_get v c p = Throw LogicError ∧ cv_set v c p x = Throw LogicError) ∧
  (¬ (cv_num_connections v ≤ c ∨ cv_num_phases v ≤ p) →
     (∃ y, cv_get v c p = Ok y) ∧ (∃ v', cv_set v c p x = Ok v')).
Proof. exact (cv_range nc np ws v c p x). Qed.

(** Missing from C18: when [nc * np] does not fit size_t the array is too short
    and an in-range access leaves it. *)
Theorem C18_wrap_refuted (N : Num) : ∃ nc np c p,
  0 ≤ c < nc ∧ 0 ≤ p < np ∧ nc < 2 ^ 64 ∧ np < 2 ^ 64 ∧ cv_get (cv_make nc np) c p = UB.
Proof. exact (cv_wrap N). Qed.

(** All shapes: the array has [nc * np] modulo 2^64 elements and entry ([c], [p])
    is element [c * np + p] modulo 2^64.  A list of writes is undefined exactly
    when one of the accepted ones falls outside the array; otherwise a rejected
    access throws, an accepted one is undefined exactly when it falls outside,
    and reads what was last written to its element - possibly through another
    entry. *)
Theorem C18_writes_exactly (N : Num) nc np (ws : list (Z * Z * num)) :
  (cv_writes (cv_make nc np) ws = UB ↔
     Exists (λ w, (nc * np) mod 2 ^ 64 ≤ w.1) (slot_writes nc np ws)) ∧
  (cv_writes (cv_make nc np) ws ≠ UB → ∃ v, cv_writes (cv_make nc np) ws = Ok v).
Proof.
  destruct (cv_writes_exactly nc np ws) as [(HF & d & E & _)|[HE E]]; rewrite E.
  - split; [|eauto]. split; [done|]. intros (w & Hw & Hle)%Exists_exists. rewrite Forall_forall in HF. specialize (HF w Hw). cbn in HF. lia.
  - by split.
Qed.

Theorem C18_access_exactly (N : Num) nc np (ws : list (Z * Z * num)) v c p x :
  cv_writes (cv_make nc np) ws = Ok v →
  (nc ≤ c ∨ np ≤ p → cv_get v c p = Throw LogicError ∧ cv_set v c p x = Throw LogicError) ∧
  (c < nc → p < np → slot np (c, p) < (nc * np) mod 2 ^ 64 →
     cv_get v c p = Ok (last_write n0 (slot_writes nc np ws) (slot np (c, p))) ∧
     ∃ v', cv_set v c p x = Ok v') ∧
  (c < nc → p < np → (nc * np) mod 2 ^ 64 ≤ slot np (c, p) →
     cv_get v c p = UB ∧ cv_set v c p x = UB).
Proof. exact (cv_access_exactly nc np ws v c p x). Qed.

(** Two entries sharing an element, and one outside: [2^63 + 1] rows of 2
    columns make an array of 2 elements. *)
Example C18_alias :
  let ws := [((2 ^ 63, 1), @nofZ b64 5)] in
  (v ← cv_writes (cv_make (2 ^ 63 + 1) 2) ws; cv_get v 0 1) = Ok (nofZ 5) ∧
  (v ← cv_writes (cv_make (2 ^ 63 + 1) 2) ws; cv_get v 1 0) = UB.
Proof. vm_compute. done. Qed.

Definition writes_ex : list (Z * Z * @num b64) := [((1, 0), nofZ 5); ((3, 0), nofZ 9); ((0, 1), nofZ 7); ((1, 0), nofZ 6)].
Example C17_ex : Forall is_size2 writes_ex ∧
  (v ← cv_writes (cv_make 2 2) writes_ex; cv_get v 1 0) = Ok (nofZ 6) ∧
  (v ← cv_writes (cv_make 2 2) writes_ex; cv_get v 0 1) = Ok (nofZ 7) ∧
  (v ← cv_writes (cv_make 2 2) writes_ex; cv_get v 1 1) = Ok (nofZ 0) ∧
  (v ← cv_writes (cv_make 2 2) writes_ex; cv_get v 2 0) = Throw LogicError.
Proof. split; [repeat constructor; cbn; lia|]. vm_compute. done. Qed.

(** ** C19: CellSetID *)
Theorem C19_strict_total_order :
  (∀ s, csid_to_string (csid_make s) = s) ∧
  (∀ a, csid_lt a a = false) ∧
  (∀ a b c, csid_lt a b = true → csid_lt b c = true → csid_lt a c = true) ∧
  (∀ s t, csid_lt (csid_make s) (csid_make t) = false ∧ csid_lt (csid_make t) (csid_make s) = false ↔ s = t).
Proof. exact csid_order. Qed.

Example C19_ex : csid_lt "I-1"%string "I-2"%string = true ∧ csid_lt "I-10"%string "I-2"%string = true ∧ csid_lt "I-2"%string "I-10"%string = false.
Proof. done. Qed.

(** ** C20: CellSet *)
Theorem C20_cellset_is_a_set (i : cellset_id) (v l : list Z) :
  let c := foldl cs_insert (cs_make i v) l in
  cs_id c = i ∧ NoDup (cs_cells c) ∧ ∀ x, x ∈ cs_cells c ↔ x ∈ v ∨ x ∈ l.
Proof. exact (cellset_is_set i v l). Qed.

Example C20_ex : cs_cells (foldl cs_insert (cs_make "P"%string [3; 1; 3]) [2; 1; 4]) = [3; 1; 2; 4].
Proof. done. Qed.

(** ** C21: Solution.  [sol_call] are the modifying calls, [globals], [tofs] and
    [concs] the values of each kind assigned by a history (Proofs/ContainerProps.v). *)
Theorem C21_last_assigned (N : Num) (h : list sol_call) :
  let s := foldl sol_apply sol_new h in
  sol_global_tof s = default [] (last (globals h)) ∧
  (∀ i, sol_tof s i = last_write [] (tofs h) i) ∧
  (∀ i, sol_concentration s i = last_write [] (concs h) i) ∧
  StronglySorted (λ a b, csid_lt a b = true) (sol_start_points s) ∧
  (∀ i, i ∈ sol_start_points s ↔ i ∈ map fst (concs h)).
Proof.
  cbn. destruct (sol_history h) as (_ & _ & H1 & H2 & H3 & _).
  destruct (sol_start_points_spec h) as [H4 H5]. done.
Qed.

Example C21_ex :
  let h := [CTof "b"%string [(1, n0)]; CConc "b"%string [(1, n1)]; CGlobal [n1]; CConc "a"%string [(2, n0)]; CConc "b"%string [(3, n1)]] in
  let s := foldl (@sol_apply b64) sol_new h in
  sol_start_points s = ["a"%string; "b"%string] ∧ sol_concentration s "b"%string = [(3, n1)] ∧
  sol_tof s "b"%string = [(1, n0)] ∧ sol_tof s "a"%string = [] ∧ sol_global_tof s = [n1].
Proof. done. Qed.

(** ** C22: the handle objects of the program behave as independent values:
    [vs_run] gives every object its own copy of the data, a copy duplicates it
    and a move takes it away from the source.  Using a moved-from object is
    undefined in both. *)
Theorem C22_value_semantics (N : Num) (ops : list solop) :
  match sw_run world0 ops, vs_run [] ops with
  | Ok w, Some v => abstract w = v
  | UB, None => True
  | _, _ => False
  end.
Proof.
  pose proof (run_refines ops world0 owned0) as H. change (abstract world0) with (@nil (option solution)) in H.
  destruct (sw_run world0 ops), (vs_run [] ops); try done. apply H.
Qed.

(** C22, spelled out for one step from any reachable world: an assignment to
    object [o] changes no other object; a copy and a move give the new object the
    value of the source and change nothing else (except emptying a moved source). *)
Theorem C22_frame (N : Num) (ops : list solop) w op w' :
  sw_run world0 ops = Ok w → sw_step w op = Ok w' →
  match op with
  | SNew => abstract w' = abstract w ++ [Some sol_new]
  | SCopy src => ∃ s, abstract w !! src = Some (Some s) ∧ abstract w' = abstract w ++ [Some s]
  | SMove src => ∃ q, abstract w !! src = Some q ∧ abstract w' = <[src := None]> (abstract w) ++ [q]
  | SAssignGlobal o _ | SAssignTof o _ _ | SAssignConc o _ _ =>
      length (abstract w') = length (abstract w) ∧
      ∀ o', o' ≠ o → abstract w' !! o' = abstract w !! o'
  end.
Proof. exact (frame_step ops w op w'). Qed.

Example C22_ex :
  match sw_run (@world0 b64) [SNew; SAssignConc 0 "a"%string [(1, n1)]; SCopy 0; SAssignConc 1 "a"%string [(2, n1)]; SMove 0] with
  | Ok w => abstract w = [None; Some (mkSol [] [] [("a"%string, [(2, n1)])]); Some (mkSol [] [] [("a"%string, [(1, n1)])])]
  | _ => False
  end.
Proof. reflexivity. Qed.

(** ** C52: RandomVector, for every generator and every pair of distributions *)
(** In a program with any number of RandomVector objects and any interleaving of
    their calls, what an object returns depends on its own calls only. *)
Theorem C52_independent_objects (N : Num) (R : rng) ops out o :
  rvw_run R [] ops = Ok out →
  outputs_of o out = rv_run R (rv_new R) (calls_to o ops).
Proof. exact (rvw_independent R ops out o). Qed.

Theorem C52_reproducible (N : Num) (R : rng) ops out o1 o2 :
  rvw_run R [] ops = Ok out → calls_to o1 ops = calls_to o2 ops →
  outputs_of o1 out = outputs_of o2 out.
Proof. exact (rvw_same_calls R ops out o1 o2). Qed.

Theorem C52_lengths (N : Num) (R : rng) g cs :
  map delivered (rv_run R g cs) = map requested cs.
Proof. exact (rv_lengths R g cs). Qed.

Theorem C52_one_stream (N : Num) (R : rng) g a b m cs : ∃ l1 l2 rest,
  rv_run R g (RIndex a m :: RIndex b m :: cs) = inr l1 :: inr l2 :: rest ∧
  rv_run R g (RIndex (a + b) m :: cs) = inr (l1 ++ l2) :: rest.
Proof. exact (rv_stream R g a b m cs). Qed.

Definition rng_ex : @rng b64 :=
  mkRng b64 Z 1 Z (λ _ _, 0) (λ d g, (nofZ (d + g), d + 1, g * 3 mod 17)) (λ lo hi g, (lo + g mod (hi - lo + 1), g * 3 mod 17)).
Example C52_ex :
  rvw_run rng_ex [] [WNew; WCall 0 (RIndex 2 9); WNew; WCall 1 (RIndex 1 9); WCall 0 (RIndex 1 9); WCall 1 (RIndex 2 9)]
  = Ok [(0%nat, inr [1; 3]); (1%nat, inr [1]); (0%nat, inr [9]); (1%nat, inr [3; 9])].
Proof. reflexivity. Qed.

Print Assumptions C16_accepts_partial.
Print Assumptions C16_reproduces.
Print Assumptions C16_negative_refuted.
Print Assumptions C16_accepts_exactly.
Print Assumptions C17_two_dimensional_store.
Print Assumptions C18_range_partial.
Print Assumptions C18_wrap_refuted.
Print Assumptions C18_writes_exactly.
Print Assumptions C18_access_exactly.
Print Assumptions C19_strict_total_order.
Print Assumptions C20_cellset_is_a_set.
Print Assumptions C21_last_assigned.
Print Assumptions C22_value_semantics.
Print Assumptions C22_frame.
Print Assumptions C52_independent_objects.
Print Assumptions C52_reproducible.
Print Assumptions C52_lengths.
Print Assumptions C52_one_stream.
