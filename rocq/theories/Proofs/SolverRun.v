(** The solver as a computation on functions from cells to values. *)
From Verif.Model Require Import Base Num OMap Containers AssembledConnections Tarjan TracerTofSolver.
From Verif.Spec Require Import GraphSpec SccSpec TarjanSpec FlowSpec.
From Verif.Proofs Require Import Util OMapFacts AConn GraphProps SolverBase.
Open Scope Z_scope.

(** ** Copying the components *)
Lemma copy_into_ok (src dst : list Z) off : 0 ≤ off → off + zlen src ≤ zlen dst →
  copy_into src dst off =
    Ok (take (Z.to_nat off) dst ++ src ++ drop (Z.to_nat off + length src) dst).
Proof.
  intros Hoff Hl. unfold copy_into.
  destruct (forZ_ind_Z (zlen src) (λ d i, x ← zget src i; zset d (off + i) x)
    (λ i d, d = take (Z.to_nat off) dst ++ take (Z.to_nat i) src ++ drop (Z.to_nat off + Z.to_nat i) dst) dst)
    as (d & E & Hd).
  - unfold zlen; lia.
  - change (Z.to_nat 0) with O. rewrite Nat.add_0_r. rewrite take_0, app_nil_l, take_drop. done.
  - intros i d Hi ->. destruct (zget_is src i Hi) as (x & -> & Hx). cbn [mbind res_bind].
    unfold zlen in *.
    assert (length (take (Z.to_nat off) dst) = Z.to_nat off) as L1 by (rewrite take_length; lia).
    assert (length (take (Z.to_nat i) src) = Z.to_nat i) as L2 by (rewrite take_length; lia).
    rewrite zset_of.
    2:{ unfold zlen. rewrite !app_length, L1, L2, drop_length. lia. }
    eexists. split; [done|].
    replace (Z.to_nat (off + i)) with (length (take (Z.to_nat off) dst) + Z.to_nat i)%nat by lia.
    rewrite insert_app_r. f_equal.
    replace (Z.to_nat i) with (length (take (Z.to_nat i) src) + 0)%nat at 1 by lia.
    rewrite insert_app_r.
    replace (Z.to_nat (i + 1)) with (S (Z.to_nat i)) by lia. rewrite (take_S_r _ _ x) by done.
    rewrite <-app_assoc. f_equal.
    destruct (lookup_lt_is_Some_2 dst (Z.to_nat off + Z.to_nat i)) as [y Hy]; [lia|].
    rewrite (drop_S _ _ _ Hy). cbn. by rewrite Nat.add_succ_r.
  - rewrite E, Hd. rewrite zlen_nat, firstn_all. done.
Qed.

(** Offsets of the components in the concatenation. *)
Definition coff (comps : list (list Z)) (k : Z) : Z := zlen (concat (take (Z.to_nat k) comps)).

Lemma coff_S comps k C : 0 ≤ k → comps !! Z.to_nat k = Some C → coff comps (k + 1) = coff comps k + zlen C.
Proof.
  intros Hk HC. unfold coff. replace (Z.to_nat (k + 1)) with (S (Z.to_nat k)) by lia.
  rewrite (take_S_r _ _ C) by done. rewrite concat_app. cbn. rewrite app_nil_r.
  unfold zlen. rewrite app_length. lia.
Qed.
Lemma coff_le comps k : coff comps k ≤ zlen (concat comps).
Proof.
  unfold coff. rewrite <-(take_drop (Z.to_nat k) comps) at 2. rewrite concat_app.
  unfold zlen. rewrite app_length. lia.
Qed.
Lemma coff_nonneg comps k : 0 ≤ coff comps k.
Proof. unfold coff, zlen. lia. Qed.
Lemma coff_all comps : coff comps (zlen comps) = zlen (concat comps).
Proof. unfold coff. by rewrite zlen_nat, firstn_all. Qed.
Lemma coff_slice comps k C : 0 ≤ k → comps !! Z.to_nat k = Some C →
  take (length C) (drop (Z.to_nat (coff comps k)) (concat comps)) = C.
Proof.
  intros Hk HC. rewrite <-(take_drop_middle _ _ _ HC) at 2. unfold coff. rewrite zlen_nat.
  rewrite concat_app. cbn [concat]. rewrite drop_app, take_app. done.
Qed.

Lemma concat_len_ge (comps : list (list Z)) : Forall (λ C, C ≠ []) comps → (length comps ≤ length (concat comps))%nat.
Proof.
  induction 1 as [|C comps HC _ IH]; cbn; [lia|]. rewrite app_length.
  destruct C; [done|]. cbn. lia.
Qed.

Lemma resize_len {A} n (x : A) l : length (resize_ n x l) = n.
Proof. unfold resize_. rewrite app_length, take_length, replicate_length. lia. Qed.

Lemma extract_ok n r comps seq0 comps0 : 0 ≤ n < 2 ^ 31 → result_is r comps →
  Forall (λ C, C ≠ []) comps → zlen (concat comps) ≤ n →
  ∃ sq, extract_components n r seq0 comps0 = Ok (sq, tab (zlen comps + 1) (coff comps)) ∧
    zlen sq = n ∧ take (length (concat comps)) sq = concat comps.
Proof.
  intros Hn [Hnum Hget] Hne Hlen. unfold extract_components. rewrite Hnum.
  pose proof (concat_len_ge comps Hne) as Hcl. fold (zlen comps).
  assert (zlen comps ≤ n) by (unfold zlen in *; lia).
  assert (0 ≤ zlen comps) by (unfold zlen; lia).
  rewrite to_int_small by lia.
  set (cs0 := resize_ (Z.to_nat (zlen comps + 1)) 0 comps0).
  assert (zlen cs0 = zlen comps + 1) as Hcs0 by (unfold zlen at 1, cs0; rewrite resize_len; lia).
  rewrite zset_of by lia. cbn [mbind res_bind]. change (Z.to_nat 0) with O.
  set (sq0 := resize_ (Z.to_nat n) 0 seq0).
  assert (zlen sq0 = n) as Hsq0 by (unfold zlen, sq0; rewrite resize_len; lia).
  match goal with |- context [forZ 0 _ ?F ?s0] =>
    destruct (forZ_ind_Z (zlen comps) F
      (λ i st, zlen st.1 = n ∧ zlen st.2 = zlen comps + 1 ∧
         (∀ k, 0 ≤ k ≤ i → st.2 !! Z.to_nat k = Some (coff comps k)) ∧
         take (Z.to_nat (coff comps i)) st.1 = concat (take (Z.to_nat i) comps)) s0) as ([sq cs] & E & H1 & H2 & H3 & H4) end.
  - lia.
  - cbn [fst snd]. split_and!; [done|unfold zlen; rewrite insert_length; done| |].
    + intros k Hk. replace k with 0 by lia. change (Z.to_nat 0) with O. apply list_lookup_insert. unfold zlen in Hcs0. lia.
    + done.
  - intros i [sq cs] Hi (H1 & H2 & H3 & H4). cbn [fst snd] in *.
    destruct (lookup_lt_is_Some_2 comps (Z.to_nat i)) as [C HC]; [unfold zlen in Hi; lia|].
    pose proof (Hget (Z.to_nat i) C HC) as HgC. rewrite Z2Nat.id in HgC by lia. rewrite HgC. cbn [mbind res_bind].
    rewrite (zget_of cs i (coff comps i)); [|lia|apply H3; lia]. cbn [mbind res_bind].
    pose proof (coff_S comps i C ltac:(lia) HC) as HcS. pose proof (coff_le comps (i + 1)).
    pose proof (coff_nonneg comps i).
    rewrite copy_into_ok by lia. cbn [mbind res_bind]. rewrite zset_of by lia. cbn [mbind res_bind].
    assert (0 ≤ zlen C) by (unfold zlen; lia).
    rewrite to_int_small by lia. eexists. split; [done|]. cbn [fst snd].
    assert (length (take (Z.to_nat (coff comps i)) sq) = Z.to_nat (coff comps i)) as L1
      by (rewrite take_length; unfold zlen in *; lia).
    split_and!.
    + unfold zlen in *. rewrite !app_length, L1, drop_length. lia.
    + unfold zlen in *. by rewrite insert_length.
    + intros k Hk. destruct (decide (k = i + 1)) as [->|Hne'].
      * rewrite list_lookup_insert by (unfold zlen in *; lia). by rewrite HcS.
      * rewrite list_lookup_insert_ne by lia. apply H3. lia.
    + replace (Z.to_nat (i + 1)) with (S (Z.to_nat i)) by lia. rewrite (take_S_r _ _ C) by done.
      rewrite concat_app. cbn [concat]. rewrite app_nil_r, <-H4.
      replace (Z.to_nat (coff comps (i + 1))) with (length (take (Z.to_nat (coff comps i)) sq ++ C)).
      2:{ rewrite app_length, L1, HcS. unfold zlen in *. lia. }
      rewrite app_assoc. apply take_app.
  - rewrite E. exists sq. cbn [fst snd] in *. split_and!; [|done|].
    + do 2 f_equal. apply list_eq. intros k. destruct (decide (Z.of_nat k < zlen comps + 1)) as [Hk|Hk].
      * rewrite tab_lookup by done. rewrite <-(H3 (Z.of_nat k)) by lia. by rewrite Nat2Z.id.
      * rewrite !lookup_ge_None_2; [done|rewrite tab_len; lia|unfold zlen in *; lia].
    + rewrite coff_all in H4. rewrite !zlen_nat, firstn_all in H4. done.
Qed.

(** ** One cell *)
Section run.
Context {N : Num} (n : Z) (A : list arc) (pv : list num) (src : cellset_values).
(** The injected rate of each start cell. *)
Context (inj : Z → option num).

Definition pvf (v : Z) : num := default n0 (pv !! Z.to_nat v).
Definition is_start (v : Z) : bool := match inj v with Some _ => true | None => false end.
Definition src_eff (v : Z) : num :=
  if neqb (value_at src v) n0 && is_start v then ninf else value_at src v.
Definition tot (v : Z) : num := nadd (influx n A v) (src_eff v).
Definition uc (c : Z → num) (v : Z) : num :=
  match inj v with Some r => nadd (mix n A c v) r | None => mix n A c v end.
Definition cellc (c : Z → num) (v : Z) : num :=
  if neqb (tot v) n0 then n0 else ndiv (uc c v) (tot v).
Definition cellt (t c : Z → num) (v : Z) (cv : num) : num :=
  if nltb (tot v) (ndiv (pvf v) max_tof) then max_tof
  else if nltb n0 cv
  then ndiv (nadd (nmul (pvf v) cv) (mix n A (λ u, nmul (t u) (c u)) v)) (nmul (tot v) cv)
  else max_tof.
Definition cell_ok (c : Z → num) (v : Z) : bool :=
  nleb n0 (tot v) && nleb n0 (uc c v) && (negb (neqb (tot v) n0) || neqb (uc c v) n0).

Definition fstate : Type := (Z → num) * (Z → num).

Definition upd_cell (st : fstate) (v : Z) : fstate :=
  (fupd st.1 v (cellt st.1 st.2 v (cellc st.2 v)), fupd st.2 v (cellc st.2 v)).
Definition run_cell (st : fstate) (v : Z) : res fstate :=
  if cell_ok st.2 v then Ok (upd_cell st v) else AssertFail.

(** A sweep, with the largest changes. *)
Definition zero_change (a b : num) : bool := negb (Bool.eqb (neqb a n0) (neqb b n0)).
Definition tracer_change (a b : num) : num :=
  if zero_change a b then n1 else nabs (nsub b a).
Definition run_gs_cell (st : fstate * num * num) (v : Z) : res (fstate * num * num) :=
  st' ← run_cell st.1.1 v;
  Ok (st', nmax st.1.2 (nabs (nsub (st'.1 v) (st.1.1.1 v))),
      nmax st.2 (tracer_change (st.1.1.2 v) (st'.2 v))).
Definition run_sweep (C : list Z) (st : fstate) : res (fstate * num * num) :=
  foldM run_gs_cell (st, n0, n0) C.
Fixpoint run_loop (fuel : nat) (C : list Z) (st : fstate) (dt dc : num) : res fstate :=
  if nltb gs_tof_tol dt || nltb gs_tracer_tol dc then
    match fuel with
    | O => NoFuel
    | S fuel' => r ← run_sweep C st; run_loop fuel' C r.1.1 r.1.2 r.2
    end
  else Ok st.
Definition run_comp (fuel : nat) (st : fstate) (C : list Z) : res fstate :=
  match C with
  | [v] => run_cell st v
  | _ => run_loop fuel C st big_delta big_delta
  end.
Definition zero_state : fstate := (λ _, n0, λ _, n0).
Definition run (fuel : nat) (comps : list (list Z)) : res fstate :=
  foldM (run_comp fuel) zero_state comps.

(** ** Relation with the model *)
Context (s : tts) (HS : solver_of n A pv src s).

(** The solver's arrays set up for the start cells [inj]. *)
Record framed (d : tdyn) : Prop := {
  fr_start : td_start d = tab n is_start;
  fr_len : zlen (td_local d) = n;
  fr_local : ∀ v r, 0 ≤ v < n → inj v = Some r → td_local d !! Z.to_nat v = Some r
}.
Definition mkd (d : tdyn) (st : fstate) : tdyn := set_fields d (tab n st.1) (tab n st.2).

Lemma framed_mkd d st : framed d → framed (mkd d st).
Proof. intros []. by split. Qed.

Lemma upwind_fold (f : fstate) (l : list Z) (w : Z → num) a b : Forall (λ u, 0 ≤ u < n) l →
  foldM (upwind_step (tab n f.1) (tab n f.2)) (a, b) (map (λ u, (u, w u)) l) =
  Ok (foldl nadd a (map (λ u, nmul (nmul (f.1 u) (f.2 u)) (w u)) l),
      foldl nadd b (map (λ u, nmul (f.2 u) (w u)) l)).
Proof.
  intros H. revert a b. induction H as [|u l Hu _ IH]; intros a b; [done|].
  cbn [map foldM upwind_step fst snd]. rewrite !tab_get by done. cbn [mbind res_bind]. apply IH.
Qed.

Lemma pv_get v : 0 ≤ v < n → zget pv v = Ok (pvf v).
Proof.
  intros Hv. pose proof (so_pvlen _ _ _ _ _ HS). destruct (zget_is pv v) as (x & -> & Hx); [lia|].
  unfold pvf. by rewrite Hx.
Qed.

Lemma single_cell_eq d st v : framed d → 0 ≤ v < n →
  solve_single_cell s (mkd d st) v = (st' ← run_cell st v; Ok (mkd d st')).
Proof.
  intros [Hst Hll Hloc] Hv. unfold solve_single_cell. destruct HS as [? ? ? Hrev Hpv ? Hin ? Hsrc].
  rewrite Hsrc, tab_get by done. cbn [mbind res_bind mkd set_fields td_start td_tof td_tracer td_local].
  rewrite Hst, Hin, !tab_get by done. cbn [mbind res_bind].
  rewrite (go_nb _ _ _ Hrev) by done. cbn [mbind res_bind].
  rewrite turn_down. rewrite upwind_fold.
  2:{ apply Forall_forall. intros u Hu%upstream_elem. tauto. }
  cbn [mbind res_bind].
  destruct (lookup_lt_is_Some_2 (td_local d) (Z.to_nat v)) as [ls Hls]; [unfold zlen in *; lia|].
  rewrite (zget_of (td_local d) v ls) by (done || lia). cbn [mbind res_bind].
  assert (foldl nadd n0 (map (λ u : Z, nmul (st.2 u) (arc_flux (turn A) v u)) (upstream n A v)) = mix n A st.2 v) as ->.
  { unfold mix, sum_left. f_equal. apply map_ext. intros u. by rewrite turn_flux. }
  assert (foldl nadd n0 (map (λ u : Z, nmul (nmul (st.1 u) (st.2 u)) (arc_flux (turn A) v u)) (upstream n A v))
    = mix n A (λ u, nmul (st.1 u) (st.2 u)) v) as ->.
  { unfold mix, sum_left. f_equal. apply map_ext. intros u. by rewrite turn_flux. }
  assert ((if is_start v then nadd (mix n A st.2 v) ls else mix n A st.2 v) = uc st.2 v) as ->.
  { unfold uc, is_start. destruct (inj v) as [r|] eqn:E; [|done]. rewrite (Hloc v r Hv E) in Hls. congruence. }
  fold (src_eff v). fold (tot v). unfold run_cell, cell_ok.
  destruct (nleb n0 (tot v)); [|done]. destruct (nleb n0 (uc st.2 v)); [|done]. cbn [assert_ mbind res_bind andb].
  unfold upd_cell. cbn [fst snd].
  assert (∀ X, (pv0 ← zget (ts_pv s) v;
    (tracer' ← zset (tab n st.2) v X;
     tof' ← zset (tab n st.1) v
       (if nltb (tot v) (ndiv pv0 max_tof) then max_tof
        else if nltb n0 X
        then ndiv (nadd (nmul pv0 X) (mix n A (λ u : Z, nmul (st.1 u) (st.2 u)) v)) (nmul (tot v) X)
        else max_tof);
     Ok (set_fields (mkTdyn (td_local d) (td_start d) (td_seq d) (td_comps d) (tab n st.1) (tab n st.2)) tof' tracer'))) =
    Ok (mkd d (fupd st.1 v (cellt st.1 st.2 v X), fupd st.2 v X))) as HX.
  { intros X. rewrite Hpv, pv_get by done. cbn [mbind res_bind]. rewrite !tab_set by done. done. }
  unfold cellc. destruct (neqb (tot v) n0) eqn:Et; cbn [negb orb].
  - destruct (neqb (uc st.2 v) n0); [|done]. cbn [assert_ mbind res_bind]. apply HX.
  - cbn [mbind res_bind]. apply HX.
Qed.

Lemma mkd_mkd d st st' : mkd (mkd d st) st' = mkd d st'.
Proof. done. Qed.

Lemma gs_cell_eq d st dt dc v : framed d → 0 ≤ v < n →
  gs_cell s (mkd d st, dt, dc) v = (r ← run_gs_cell (st, dt, dc) v; Ok (mkd d r.1.1, r.1.2, r.2)).
Proof.
  intros Hd Hv. unfold gs_cell, run_gs_cell.
  cbn [mkd set_fields td_tof td_tracer fst snd]. rewrite !tab_get by done. cbn [mbind res_bind].
  change (mkTdyn _ _ _ _ _ _) with (mkd d st).
  rewrite single_cell_eq by done. destruct (run_cell st v) as [st'| | | |]; try done.
  cbn [mbind res_bind mkd set_fields td_tof td_tracer fst snd]. rewrite !tab_get by done. done.
Qed.

Lemma sweep_eq d C : framed d → Forall (λ v, 0 ≤ v < n) C → ∀ st dt dc,
  foldM (gs_cell s) (mkd d st, dt, dc) C =
  (r ← foldM run_gs_cell (st, dt, dc) C; Ok (mkd d r.1.1, r.1.2, r.2)).
Proof.
  intros Hd. induction 1 as [|v C Hv _ IH]; intros st dt dc; [done|].
  cbn [foldM]. rewrite gs_cell_eq by done.
  destruct (run_gs_cell (st, dt, dc) v) as [[[st' dt'] dc']| | | |]; try done. cbn [mbind res_bind fst snd]. apply IH.
Qed.

Lemma loop_eq d C : framed d → Forall (λ v, 0 ≤ v < n) C → ∀ fuel st dt dc,
  gs_loop fuel s C (mkd d st) dt dc = (st' ← run_loop fuel C st dt dc; Ok (mkd d st')).
Proof.
  intros Hd HC. induction fuel as [|fuel IH]; intros st dt dc; cbn [gs_loop run_loop];
    (destruct (nltb gs_tof_tol dt || nltb gs_tracer_tol dc); [|done]); [done|].
  unfold gs_sweep, run_sweep. rewrite sweep_eq by done.
  destruct (foldM run_gs_cell (st, n0, n0) C) as [[[st' dt'] dc']| | | |]; try done. cbn [mbind res_bind fst snd]. apply IH.
Qed.

(** The components laid out in the solver's arrays. *)
Definition laid_out (comps : list (list Z)) (d : tdyn) : Prop :=
  td_seq d = concat comps ∧ td_comps d = tab (zlen comps + 1) (coff comps).

Lemma comp_eq fuel d comps k C st : framed d → laid_out comps d →
  0 ≤ k → comps !! Z.to_nat k = Some C → C ≠ [] → Forall (λ v, 0 ≤ v < n) C →
  solve_comp fuel s (mkd d st) k = (st' ← run_comp fuel st C; Ok (mkd d st')).
Proof.
  intros Hd [Hsq Hcs] Hk HC Hne Hr. unfold solve_comp. cbn [mkd set_fields td_comps td_seq].
  pose proof (lookup_lt_Some _ _ _ HC) as Hkl.
  rewrite Hcs, !tab_get by (unfold zlen; lia). cbn [mbind res_bind].
  rewrite (coff_S comps k C Hk HC). pose proof (coff_slice comps k C Hk HC) as Hsl.
  pose proof (coff_nonneg comps k). pose proof (coff_le comps (k + 1)) as Hle. rewrite (coff_S comps k C Hk HC) in Hle.
  replace (coff comps k + zlen C - coff comps k) with (zlen C) by lia.
  change (mkTdyn _ _ _ _ _ _) with (mkd d st).
  destruct (Z.eqb_spec (zlen C) 1) as [H1|H1].
  - destruct C as [|v [|? ?]]; [done| |unfold zlen in H1; cbn in H1; lia].
    rewrite Hsq. rewrite (zget_of _ _ v); [|done|].
    2:{ replace (Z.to_nat (coff comps k)) with (Z.to_nat (coff comps k) + 0)%nat by lia.
        rewrite <-lookup_drop. rewrite <-(lookup_take _ 1) by lia. cbn in Hsl. by rewrite Hsl. }
    cbn [mbind res_bind run_comp]. apply single_cell_eq; [done|by inv Hr].
  - rewrite Hsq. unfold zslice. rewrite (proj2 (Z.leb_le 0 _)) by lia.
    rewrite (proj2 (Z.leb_le (coff comps k) _)) by (unfold zlen; lia). rewrite (proj2 (Z.leb_le _ (zlen (concat comps)))) by lia.
    cbn [andb mbind res_bind]. replace (coff comps k + zlen C - coff comps k) with (zlen C) by lia.
    rewrite zlen_nat, Hsl. unfold solve_multi_cell. rewrite loop_eq by done.
    destruct C as [|v [|? ?]]; done.
Qed.

Lemma solve_eq fuel d comps st : framed d → laid_out comps d →
  Forall (λ C, C ≠ [] ∧ Forall (λ v, 0 ≤ v < n) C) comps → zlen comps < 2 ^ 31 →
  solve fuel s (mkd d st) =
  (st' ← foldM (run_comp fuel) st comps; Ok (mkd d (λ v, nmin (st'.1 v) max_tof, st'.2))).
Proof.
  intros Hd Hl Hc Hlt. unfold solve. cbn [mkd set_fields td_comps]. rewrite (proj2 Hl).
  rewrite tab_zlen by (unfold zlen; lia). replace (zlen comps + 1 - 1) with (zlen comps) by lia.
  rewrite to_int_small by (unfold zlen in *; lia). change (mkTdyn _ _ _ _ _ _) with (mkd d st).
  assert (∀ l1 l2 st, comps = l1 ++ l2 →
    foldM (solve_comp fuel s) (mkd d st) (seqZ (zlen l1) (zlen l2)) =
    (st' ← foldM (run_comp fuel) st l2; Ok (mkd d st'))) as H.
  { intros l1 l2. revert l1. induction l2 as [|C l2 IH]; intros l1 st0 Heq; [done|].
    unfold zlen at 2. cbn [length]. rewrite seqZ_cons by lia. cbn [foldM].
    rewrite (comp_eq fuel d comps (zlen l1) C).
    - destruct (run_comp fuel st0 C) as [st1| | | |]; try done. cbn [mbind res_bind].
      rewrite <-(IH (l1 ++ [C])); [|rewrite <-app_assoc; done]. f_equal. unfold zlen. rewrite app_length. cbn [length]. f_equal; lia.
    - done.
    - done.
    - unfold zlen; lia.
    - rewrite zlen_nat, Heq. by rewrite list_lookup_middle.
    - apply (proj1 (Forall_forall _ _) Hc). rewrite Heq. set_solver.
    - apply (proj1 (Forall_forall _ _) Hc). rewrite Heq. set_solver. }
  unfold forZ. rewrite Z.sub_0_r. change 0 with (zlen (@nil (list Z))). rewrite (H [] comps st) by done.
  destruct (foldM (run_comp fuel) st comps) as [st'| | | |]; try done.
  cbn [mbind res_bind mkd set_fields td_tof td_tracer]. by rewrite tab_map.
Qed.
End run.
