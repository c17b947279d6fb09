(** tarjan_reverse_sccresult on every result the library can produce. *)
From Verif.Model Require Import Base Tarjan.
From Verif.Spec Require Import SccSpec TarjanSpec.
From Verif.Proofs Require Import Util TarjanAbs TarjanSim TarjanProps.
Open Scope Z_scope.

Lemma copy_ok C src so dst d : 0 ≤ so → 0 ≤ d → d + Z.of_nat (length C) ≤ zlen dst →
  (∀ i x, C !! i = Some x → src !! (Z.to_nat so + i)%nat = Some x) →
  ∃ dst', copy_int_vector (Z.of_nat (length C)) src so dst d = Ok dst' ∧ length dst' = length dst ∧
    (∀ i, (i < Z.to_nat d)%nat → dst' !! i = dst !! i) ∧
    (∀ i x, C !! i = Some x → dst' !! (Z.to_nat d + i)%nat = Some x).
Proof.
  intros Hso Hd Hl Hsrc. unfold copy_int_vector.
  destruct (forZ_ind_Z (Z.of_nat (length C)) (λ l i, x ← zget src (so + i); zset l (d + i) x)
    (λ k l', length l' = length dst ∧ (∀ i, (i < Z.to_nat d)%nat → l' !! i = dst !! i) ∧
       ∀ i x, (i < Z.to_nat k)%nat → C !! i = Some x → l' !! (Z.to_nat d + i)%nat = Some x) dst)
    as (l' & E1 & H1 & H2 & H3).
  - lia.
  - split_and!; [done..|]. intros i x Hi. cbn in Hi. lia.
  - intros k l0 Hk (H1 & H2 & H3).
    destruct (lookup_lt_is_Some_2 C (Z.to_nat k)) as [x Hx]; [lia|].
    rewrite (zget_of src (so + k) x); [|lia|].
    2:{ rewrite Z2Nat.inj_add by lia. by apply Hsrc. }
    cbn [mbind res_bind]. rewrite zset_of by (unfold zlen in *; lia). eexists. split; [done|].
    rewrite insert_length. split_and!; [done| |].
    + intros i Hi. rewrite list_lookup_insert_ne by lia. by apply H2.
    + intros i y Hi Hy. destruct (decide (i = Z.to_nat k)) as [->|Hne].
      * replace (Z.to_nat d + Z.to_nat k)%nat with (Z.to_nat (d + k)) by lia.
        rewrite list_lookup_insert; [congruence|]. unfold zlen in Hl. lia.
      * rewrite list_lookup_insert_ne by lia. apply H3; [lia|done].
  - exists l'. split_and!; [done..|]. intros i x Hx. apply H3; [|done]. apply lookup_lt_Some in Hx. lia.
Qed.

(** The layout every finished result has. *)
Record holds (s : scc) (comps : list (list Z)) : Prop := {
  ho_lay : layC (s_ncomp s) (s_start s) (s_vert s) comps;
  ho_ne : Forall (λ C, C ≠ []) comps;
  ho_small : zlen (concat comps) < 2 ^ 31;
  ho_vert : zlen (concat comps) ≤ zlen (s_vert s)
}.

Lemma holds_result s comps : holds s comps → result_is s comps.
Proof. intros [H1 H2 H3 H4]. apply lay_result; [done|done|lia]. Qed.

Lemma concat_len_take (l : list (list Z)) k : (length (concat (take k l)) ≤ length (concat l))%nat.
Proof. rewrite <-(take_drop k l) at 2. rewrite concat_app, app_length. lia. Qed.

Lemma layC_start nc start vert comps i : layC nc start vert comps → (i ≤ length comps)%nat →
  zget start (Z.of_nat i) = Ok (zlen (concat (take i comps))).
Proof. intros (_ & H & _) Hi. apply zget_of; [lia|]. rewrite Nat2Z.id. by apply H. Qed.

Lemma reverse_step_ok src comps k C nc start vert D : holds src comps → comps !! k = Some C →
  layC nc start vert D → (S (length D) < length start)%nat →
  zlen (concat D) + zlen C ≤ zlen vert → zlen (concat D) + zlen C < 2 ^ 31 →
  ∃ start' vert', reverse_step src (nc, start, vert) (Z.of_nat k + 1) = Ok (nc + 1, start', vert') ∧
    layC (nc + 1) start' vert' (D ++ [C]) ∧ length start' = length start ∧ length vert' = length vert.
Proof.
  intros [HL _ Hsm Hv] HC HD Hst Hvl Hsm2. pose proof (lookup_lt_Some _ _ _ HC) as Hk.
  pose proof (concat_take_S _ _ _ HC) as Hcc. pose proof (concat_len_take comps (S k)) as Hle.
  rewrite Hcc, app_length in Hle.
  unfold reverse_step.
  replace (Z.of_nat k + 1) with (Z.of_nat (S k)) by lia.
  rewrite (layC_start _ _ _ _ (S k) HL) by lia. cbn [mbind res_bind].
  replace (Z.of_nat (S k) - 1) with (Z.of_nat k) by lia.
  rewrite (layC_start _ _ _ _ k HL) by lia. cbn [mbind res_bind].
  assert (to_size (zlen (concat (take (S k) comps)) - zlen (concat (take k comps))) = Z.of_nat (length C)) as ->.
  { rewrite Hcc. unfold zlen in *. rewrite app_length. unfold to_size. rewrite Z.mod_small; lia. }
  destruct HD as (Hn & Hs & Hvv). unfold zlen in Hn. subst nc.
  rewrite (zget_of start (Z.of_nat (length D)) (zlen (concat D))); [|lia|].
  2:{ rewrite Nat2Z.id, Hs, take_ge by lia. done. }
  cbn [mbind res_bind]. rewrite zset_of by (unfold zlen; lia). cbn [mbind res_bind].
  set (start1 := <[_ := _]> start).
  rewrite (zget_of start1 (Z.of_nat (length D) + 1) (zlen (concat D))); [|lia|].
  2:{ unfold start1. apply list_lookup_insert. lia. }
  cbn [mbind res_bind].
  destruct (copy_ok C (s_vert src) (zlen (concat (take k comps))) vert (zlen (concat D))) as (vert' & E1 & L1 & H1 & H2);
    [unfold zlen; lia|unfold zlen; lia|unfold zlen in *; lia| |].
  { intros i x Hx. unfold zlen. rewrite Nat2Z.id. apply HL.
    assert (concat comps = concat (take k comps) ++ C ++ concat (drop (S k) comps)) as ->.
    { rewrite <-(take_drop (S k) comps) at 1. by rewrite concat_app, Hcc, <-app_assoc. }
    rewrite lookup_app_r by lia.
    rewrite lookup_app_l; [|apply lookup_lt_Some in Hx; lia]. rewrite <-Hx. f_equal. lia. }
  rewrite E1. cbn [mbind res_bind].
  rewrite zset_of by (unfold zlen, start1 in *; rewrite insert_length; lia). cbn [mbind res_bind].
  eexists _, _. split; [done|]. unfold start1. rewrite !insert_length. split_and!; [|done|done].
  assert (to_size (zlen (concat D) + Z.of_nat (length C)) = zlen (concat (D ++ [C]))) as ->.
  { rewrite concat_app. cbn. rewrite app_nil_r. unfold zlen in *. rewrite app_length. unfold to_size.
    rewrite Z.mod_small; lia. }
  split_and!.
  - unfold zlen. rewrite app_length. cbn. lia.
  - intros i Hi. rewrite app_length in Hi. cbn in Hi.
    replace (Z.to_nat (Z.of_nat (length D) + 1)) with (S (length D)) by lia.
    destruct (decide (i = S (length D))) as [->|Hne].
    + rewrite list_lookup_insert by (rewrite insert_length; lia). rewrite take_ge; [done|]. rewrite app_length. cbn. lia.
    + rewrite !list_lookup_insert_ne by done. rewrite take_app_le by lia. apply Hs. lia.
  - intros i x. rewrite concat_app. cbn. rewrite app_nil_r. intros Hx.
    apply lookup_app_Some in Hx as [Hx|[Hge Hx]].
    + rewrite H1; [by apply Hvv|]. apply lookup_lt_Some in Hx. unfold zlen. lia.
    + replace i with (Z.to_nat (zlen (concat D)) + (i - length (concat D)))%nat by (unfold zlen; lia). by apply H2.
Qed.

Lemma reverse_fold_ok src comps k : holds src comps → (k ≤ length comps)%nat →
  ∀ nc start vert D, layC nc start vert D → (length D + k < length start)%nat →
  zlen (concat D) + zlen (concat (take k comps)) ≤ zlen vert →
  zlen (concat D) + zlen (concat (take k comps)) < 2 ^ 31 →
  ∃ start' vert', foldM (reverse_step src) (nc, start, vert) (reverse (seqZ 1 (Z.of_nat k))) = Ok (nc + Z.of_nat k, start', vert') ∧
    layC (nc + Z.of_nat k) start' vert' (D ++ reverse (take k comps)) ∧
    length start' = length start ∧ length vert' = length vert.
Proof.
  intros Hsrc. induction k as [|k IH]; intros Hk nc start vert D HD Hst Hv Hb.
  - exists start, vert. rewrite Z.add_0_r, take_0, app_nil_r. done.
  - destruct (lookup_lt_is_Some_2 comps k) as [C HC]; [lia|].
    pose proof (concat_take_S _ _ _ HC) as Hcc. rewrite Hcc in Hv, Hb. unfold zlen in Hv, Hb.
    rewrite app_length in Hv, Hb.
    assert (reverse (seqZ 1 (Z.of_nat (S k))) = (Z.of_nat k + 1) :: reverse (seqZ 1 (Z.of_nat k))) as ->.
    { replace (Z.of_nat (S k)) with (Z.of_nat k + 1) by lia. rewrite seqZ_app, reverse_app by lia.
      rewrite (seqZ_cons _ 1) by lia. change (seqZ _ (Z.pred 1)) with (@nil Z).
      rewrite reverse_singleton, (Z.add_comm 1). done. }
    cbn [foldM].
    destruct (reverse_step_ok src comps k C nc start vert D) as (s1 & v1 & E1 & L1 & H1 & H2);
      [done|done|done|lia|unfold zlen; lia|unfold zlen; lia|].
    rewrite E1. cbn [mbind res_bind].
    assert (length (concat (D ++ [C])) = length (concat D) + length C)%nat as Hdc
      by (rewrite concat_app; cbn; rewrite app_nil_r, app_length; done).
    destruct (IH ltac:(lia) (nc + 1) s1 v1 (D ++ [C])) as (s2 & v2 & E2 & L2 & H3 & H4).
    + done.
    + rewrite app_length. cbn. lia.
    + unfold zlen. lia.
    + unfold zlen. lia.
    + exists s2, v2. replace (nc + Z.of_nat (S k)) with (nc + 1 + Z.of_nat k) by lia.
      rewrite (take_S_r _ _ _ HC), reverse_app. cbn. rewrite <-app_assoc in L2. split_and!; [done|done|lia|lia].
Qed.

Lemma concat_reverse_len (l : list (list Z)) : length (concat (reverse l)) = length (concat l).
Proof.
  induction l as [|x l IH]; [done|]. rewrite reverse_cons, concat_app, app_length, IH. cbn.
  rewrite app_nil_r, app_length. lia.
Qed.

Lemma reverse_ok h s comps : holds s comps → scc_ok h 8 = true →
  ∃ s', tarjan_reverse_sccresult h s = Ok (true, s') ∧ holds s' (reverse comps).
Proof.
  intros Hs Hh. pose proof Hs as [(Hn & Hst & Hv) Hne Hsm Hvl].
  unfold tarjan_reverse_sccresult. rewrite Hh, Hn.
  rewrite (zget_of (s_start s) (zlen comps) (zlen (concat comps))); [|unfold zlen; lia|].
  2:{ unfold zlen. rewrite Nat2Z.id, Hst, take_ge by lia. done. }
  cbn [mbind res_bind]. unfold reverse_scc_core, tarjan_initialise_csr, new_scc.
  cbn [s_start s_vert s_ncomp s_vstack s_vstart s_cstack s_cstart].
  rewrite zset_of by (unfold zlen; rewrite fresh_length; lia). cbn [mbind res_bind].
  cbn [s_start s_vert s_ncomp s_vstack s_vstart s_cstack s_cstart]. rewrite Hn.
  pose proof (nonempty_concat comps Hne) as Hnc.
  destruct (reverse_fold_ok s comps (length comps) Hs ltac:(lia) 0
     (<[Z.to_nat 0 := 0]> (fresh_block h 9 (Z.to_nat (zlen (concat comps)) + 1)))
     (fresh_block h 10 (Z.to_nat (zlen (concat comps)))) []) as (s' & v' & E1 & L1 & H1 & H2).
  - split_and!; [done| |intros i x Hx; by destruct i].
    intros i Hi. cbn in Hi. assert (i = 0%nat) as -> by lia. apply list_lookup_insert. rewrite fresh_length. lia.
  - rewrite insert_length, fresh_length. unfold zlen. cbn. lia.
  - rewrite take_ge by lia. unfold zlen. rewrite fresh_length. cbn. lia.
  - rewrite take_ge by lia. cbn. unfold zlen in *. cbn. lia.
  - fold (zlen comps) in E1. rewrite E1. cbn [mbind res_bind].
    eexists. split; [done|]. rewrite take_ge in L1 by lia. cbn [app] in L1. cbn [s_start s_vert].
    constructor; cbn [s_start s_vert s_ncomp].
    + unfold zlen. done.
    + by apply Forall_reverse.
    + unfold zlen in *. by rewrite concat_reverse_len.
    + unfold zlen in *. rewrite concat_reverse_len, H2, fresh_length. lia.
Qed.

Lemma reverse_fail h s comps : holds s comps → scc_ok h 8 = false →
  tarjan_reverse_sccresult h s = Ok (false, s).
Proof.
  intros Hs Hh. pose proof Hs as [(Hn & Hst & Hv) Hne Hsm Hvl].
  unfold tarjan_reverse_sccresult. rewrite Hh, Hn.
  rewrite (zget_of (s_start s) (zlen comps) (zlen (concat comps))); [done|unfold zlen; lia|].
  unfold zlen. rewrite Nat2Z.id, Hst, take_ge by lia. done.
Qed.

Lemma rep_holds nv ia ja nw w s a R : wf_graph nv ia ja → nv ≤ nw → rep nw w s a →
  Inv (csr_row ia ja) nv a [] None R → holds s (a_comps a).
Proof.
  intros WF Hnw Rp I. pose proof (wf_nv _ _ _ WF).
  assert (zlen (concat (a_comps a)) ≤ nv) as Hb.
  { unfold zlen. apply NoDup_bound; [lia| |].
    - pose proof (i_nd _ _ _ _ _ _ I) as Hnd. rewrite (proj2 (rest_V _ _ _ _ _ I)), app_nil_r in Hnd. done.
    - intros v Hv. apply (i_rng _ _ _ _ _ _ I). set_solver. }
  constructor; [apply Rp|by eapply inv_nonempty|lia|].
  unfold zlen in *. rewrite (r_lv _ _ _ _ Rp). lia.
Qed.

Lemma obtained_holds s : obtained s → ∃ comps, holds s comps.
Proof.
  induction 1 as [h nv ia ja s WF Ht|h nv ia ja starts w w' nw s WF Hw Hnw Hst Ht|h s b s' Hs [comps IH] Ht].
  - unfold tarjan in Ht. case_match; [|done]. pose proof (wf_nv _ _ _ WF).
    destruct (global_ok nv ia ja WF (tarjan_fuel nv ja) (new_ws h 0 nv) (new_scc h 3 nv)) as (t & H1 & H2 & H3 & H4).
    + apply new_ws_sized.
    + unfold new_scc. cbn [s_start]. rewrite fresh_length. lia.
    + unfold new_scc. cbn [s_vert]. by rewrite fresh_length.
    + apply todo_fuel; [done|lia].
    + rewrite H1 in Ht. cbn [mbind res_bind] in Ht. injection Ht as <-. eexists. eapply rep_holds; [done| |done|done]. lia.
  - unfold tarjan_reachable_sccs in Ht. destruct Hw as (Hw1 & Hw2). rewrite Hw1 in Ht.
    rewrite (proj2 (Z.leb_le _ _) Hnw) in Ht. cbn [assert_ mbind res_bind] in Ht. case_match; [|done]. pose proof (wf_nv _ _ _ WF).
    destruct (reachable_ok nv nw ia ja WF Hnw (tarjan_fuel nw ja) starts w (new_scc h 6 nw)) as (t & H1 & H2 & H3 & H4).
    + done.
    + unfold new_scc. cbn [s_start]. rewrite fresh_length. lia.
    + unfold new_scc. cbn [s_vert]. by rewrite fresh_length.
    + done.
    + by apply todo_fuel.
    + rewrite H1 in Ht. cbn [mbind res_bind] in Ht. injection Ht as <- <-. eexists. by eapply rep_holds.
  - destruct (scc_ok h 8) eqn:Hh.
    + destruct (reverse_ok h s comps IH Hh) as (s2 & E1 & H2). rewrite E1 in Ht. injection Ht as <- <-. eauto.
    + rewrite (reverse_fail h s comps IH Hh) in Ht. injection Ht as <- <-. eauto.
Qed.
