(** Memory management of tarjan.c: no invalid free, no leak. *)
From stdpp Require Import gmap.
From Verif.Model Require Import Base TarjanAlloc.
From Verif.Spec Require Import TarjanMemSpec.
Open Scope nat_scope.

(** Objects allocated in [m] are the same in [m']. *)
Definition frame (m m' : mem) : Prop :=
  ∀ q, q ∈ m_live m → m_scc m' !! q = m_scc m !! q ∧ m_ws m' !! q = m_ws m !! q.

Ltac memstep :=
  unfold mbind, bindM, retM, malloc, free, get_scc, put_scc, get_ws, put_ws, touch; cbn [m_live m_calls m_ws m_scc fst snd].

Section alloc.
Context (ok : nat → bool).

Lemma create_ok m : fresh_mem m → ∃ r m', create_tarjan_workspace ok m = Ok (r, m') ∧ fresh_mem m' ∧
  m_calls m ≤ m_calls m' ∧ frame m m' ∧
  match r with
  | None => m_live m' = m_live m ∧ some_failed ok m m'
  | Some p => ∃ L, owns_ws m' p L ∧ L ## m_live m ∧ m_live m' = L ∪ m_live m ∧ all_ok ok m m'
  end.
Proof.
  intros Hf. unfold create_tarjan_workspace, fresh_mem in *. memstep.
  assert (m_calls m ∉ m_live m) as H0 by (intros H%Hf; lia).
  assert (S (m_calls m) ∉ m_live m) as H1 by (intros H%Hf; lia).
  assert (m_calls m ≠ S (m_calls m)) as N1 by lia.
  assert (m_calls m ≠ S (S (m_calls m))) as N2 by lia.
  destruct (ok (m_calls m)) eqn:E0.
  2:{ eexists _, _. split; [done|]. cbn. split_and!; [|lia|done|done|].
      - intros p H%Hf. lia.
      - exists (m_calls m). cbn. auto with lia. }
  rewrite decide_True by set_solver. cbn.
  destruct (ok (S (m_calls m))) eqn:E1; cbn.
  - rewrite decide_True by set_solver. cbn. eexists _, _. split; [done|]. cbn. split_and!; [|lia| |].
    + intros p Hp. rewrite !elem_of_union, !elem_of_singleton in Hp. destruct Hp as [->|[->|H%Hf]]; lia.
    + intros q Hq. cbn. rewrite !lookup_insert_ne by set_solver. done.
    + exists {[m_calls m; S (m_calls m)]}. split_and!.
      * exists (S (m_calls m)). cbn. rewrite lookup_insert. split_and!; [done|lia|done|set_solver].
      * set_solver.
      * set_solver.
      * intros k Hk. cbn in Hk. assert (k = m_calls m ∨ k = S (m_calls m)) as [->| ->] by lia; done.
  - rewrite decide_True by set_solver. cbn. unfold destroy_tarjan_workspace. memstep.
    rewrite decide_True by set_solver. rewrite lookup_insert. rewrite decide_True by set_solver.
    eexists _, _. split; [done|]. cbn. split_and!; [|lia| | |].
    + intros p Hp. assert (p ∈ m_live m) as H%Hf by set_solver. lia.
    + intros q Hq. cbn. rewrite !lookup_insert_ne by set_solver. done.
    + set_solver.
    + exists (S (m_calls m)). cbn. auto with lia.
Qed.

Lemma allocate_ok m : fresh_mem m → ∃ r m', allocate_scc_result ok m = Ok (r, m') ∧ fresh_mem m' ∧
  m_calls m ≤ m_calls m' ∧ frame m m' ∧
  match r with
  | None => m_live m' = m_live m ∧ some_failed ok m m'
  | Some p => ∃ L, owns_scc m' p L ∧ L ## m_live m ∧ m_live m' = L ∪ m_live m ∧ all_ok ok m m'
  end.
Proof.
  intros Hf. unfold allocate_scc_result, fresh_mem in *. memstep.
  assert (m_calls m ∉ m_live m) as H0 by (intros H%Hf; lia).
  assert (S (m_calls m) ∉ m_live m) as H1 by (intros H%Hf; lia).
  assert (S (S (m_calls m)) ∉ m_live m) as H2 by (intros H%Hf; lia).
  assert (m_calls m ≠ S (m_calls m)) as N1 by lia.
  assert (m_calls m ≠ S (S (m_calls m))) as N2 by lia.
  destruct (ok (m_calls m)) eqn:E0.
  2:{ eexists _, _. split; [done|]. cbn. split_and!; [|lia|done|done|].
      - intros p H%Hf. lia.
      - exists (m_calls m). cbn. auto with lia. }
  rewrite decide_True by set_solver. cbn.
  destruct (ok (S (m_calls m))) eqn:E1; cbn.
  all: rewrite decide_True by set_solver; cbn.
  all: destruct (ok (S (S (m_calls m)))) eqn:E2; cbn.
  all: rewrite decide_True by set_solver; cbn.
  1:{ eexists _, _. split; [done|]. cbn. split_and!; [|lia| |].
    + intros p Hp. rewrite !elem_of_union, !elem_of_singleton in Hp. destruct Hp as [->|[->|[->|H%Hf]]]; lia.
    + intros q Hq. cbn. rewrite !lookup_insert_ne by set_solver. done.
    + exists {[m_calls m; S (m_calls m); S (S (m_calls m))]}. split_and!.
      * exists (S (m_calls m)), (S (S (m_calls m))). cbn. rewrite lookup_insert. split_and!; [done|lia|lia|lia|done|set_solver].
      * set_solver.
      * set_solver.
      * intros k Hk. cbn in Hk. assert (k = m_calls m ∨ k = S (m_calls m) ∨ k = S (S (m_calls m))) as [->|[->| ->]] by lia; done. }
  all: assert (S (m_calls m) ≠ S (S (m_calls m))) as N3 by lia.
  all: unfold destroy_tarjan_sccresult; memstep.
  all: rewrite decide_True by set_solver; rewrite lookup_insert; cbn.
  all: rewrite ?decide_True by set_solver; cbn.
  all: rewrite ?decide_True by set_solver; cbn.
  all: eexists _, _; split; [done|]; cbn; split_and!; [|lia| | |].
  all: try (intros p Hp; assert (p ∈ m_live m) as H%Hf by set_solver; lia).
  all: try (intros q Hq; cbn; rewrite !lookup_insert_ne by set_solver; done).
  all: try match goal with |- _ = _ => clear E0 E1 E2 Hf; set_solver end.
  - exists (S (S (m_calls m))). cbn. auto with lia.
  - exists (S (m_calls m)). cbn. auto with lia.
  - exists (S (m_calls m)). cbn. auto with lia.
Qed.

Lemma destroy_scc_ok m p L : fresh_mem m → owns_scc m p L →
  ∃ m', destroy_tarjan_sccresult (Some p) m = Ok (tt, m') ∧ m_live m' = m_live m ∖ L ∧
    m_calls m' = m_calls m ∧ m_scc m' = m_scc m ∧ m_ws m' = m_ws m.
Proof.
  intros Hf (s & v & Hp & H1 & H2 & H3 & -> & Hs). unfold destroy_tarjan_sccresult. memstep.
  rewrite decide_True by set_solver. rewrite Hp. cbn.
  rewrite decide_True by set_solver. cbn. rewrite decide_True by set_solver. cbn. rewrite decide_True by set_solver.
  eexists. split; [done|]. cbn. split_and!; [set_solver|done..].
Qed.

Lemma destroy_ws_ok m p L : fresh_mem m → owns_ws m p L →
  ∃ m', destroy_tarjan_workspace (Some p) m = Ok (tt, m') ∧ m_live m' = m_live m ∖ L ∧
    m_calls m' = m_calls m ∧ m_scc m' = m_scc m ∧ m_ws m' = m_ws m.
Proof.
  intros Hf (s & Hp & H1 & -> & Hs). unfold destroy_tarjan_workspace. memstep.
  rewrite decide_True by set_solver. rewrite Hp. cbn.
  rewrite decide_True by set_solver. cbn. rewrite decide_True by set_solver.
  eexists. split; [done|]. cbn. split_and!; [set_solver|done..].
Qed.

Lemma set_rm (A B C : gset nat) : A ## B ∪ C → B ## C → (A ∪ (B ∪ C)) ∖ B = A ∪ C.
Proof. set_solver. Qed.
Lemma set_rm2 (B C : gset nat) : B ## C → (B ∪ C) ∖ B = C.
Proof. set_solver. Qed.
Global Arguments destroy_tarjan_sccresult : simpl never.
Global Arguments destroy_tarjan_workspace : simpl never.

Ltac ss :=
  repeat match goal with
  | H : frame _ _ |- _ => clear H
  | H : fresh_mem _ |- _ => clear H
  | H : all_ok _ _ _ |- _ => clear H
  | H : _ = Ok _ |- _ => clear H
  | H : m_scc _ = _ |- _ => clear H
  | H : m_ws _ = _ |- _ => clear H
  | H : m_calls _ = _ |- _ => clear H
  | H : m_calls _ ≤ _ |- _ => clear H
  | H : _ !! _ = _ |- _ => clear H
  | H : owns_scc _ _ _ |- _ => clear H
  | H : owns_ws _ _ _ |- _ => clear H
  end; set_solver.

Lemma frame_trans m1 m2 m3 : frame m1 m2 → m_live m1 ⊆ m_live m2 → frame m2 m3 → frame m1 m3.
Proof. intros H1 Hs H2 q Hq. destruct (H1 q Hq), (H2 q (Hs _ Hq)). split; congruence. Qed.

Lemma owns_ws_frame m m' p L : owns_ws m p L → frame m m' → m_live m ⊆ m_live m' → owns_ws m' p L.
Proof. intros (s & H1 & H2 & -> & H3) Hf Hs. exists s. rewrite (proj2 (Hf p ltac:(ss))). split_and!; [done..|ss]. Qed.
Lemma owns_scc_frame m m' p L : owns_scc m p L → frame m m' → L ⊆ m_live m' → owns_scc m' p L.
Proof.
  intros (s & v & H1 & H2 & H3 & H4 & -> & H5) Hf Hs. exists s, v. rewrite (proj1 (Hf p ltac:(ss))). by split_and!.
Qed.

Lemma run_dfs_ok m w s Lw Ls : owns_ws m w Lw → owns_scc m s Ls → run_dfs (Some w) (Some s) m = Ok (tt, m).
Proof.
  intros (a & H1 & H2 & -> & H3) (b & c & H4 & H5 & H6 & H7 & -> & H8). unfold run_dfs. memstep.
  rewrite decide_True by ss. rewrite H1. rewrite decide_True by ss.
  rewrite decide_True by ss. rewrite H4. cbn. by rewrite !decide_True by ss.
Qed.

Lemma tarjan_mem_ok m : fresh_mem m → ∃ r m', tarjan_mem ok m = Ok (r, m') ∧ fresh_mem m' ∧
  m_calls m ≤ m_calls m' ∧ frame m m' ∧
  match r with
  | None => m_live m' = m_live m ∧ some_failed ok m m'
  | Some p => ∃ L, owns_scc m' p L ∧ L ## m_live m ∧ m_live m' = L ∪ m_live m ∧ all_ok ok m m'
  end.
Proof.
  intros Hf. unfold tarjan_mem. unfold mbind, bindM.
  destruct (create_ok m Hf) as (w & m1 & E1 & F1 & C1 & Fr1 & H1). rewrite E1.
  destruct (allocate_ok m1 F1) as (s & m2 & E2 & F2 & C2 & Fr2 & H2). rewrite E2.
  destruct w as [w|], s as [s|].
  - destruct H1 as (Lw & Ow & Dw & Hl1 & A1), H2 as (Ls & Os & Ds & Hl2 & A2).
    pose proof (owns_ws_frame _ _ _ _ Ow Fr2 ltac:(ss)) as Ow2.
    unfold retM. cbn [snd fst]. rewrite (run_dfs_ok _ _ _ _ _ Ow2 Os).
    destruct (destroy_ws_ok m2 w Lw F2 Ow2) as (m3 & E3 & Hl3 & Hc3 & Hs3 & Hw3). rewrite E3.
    eexists _, _. split; [done|]. cbn [snd]. split_and!.
    + intros p. rewrite Hl3, Hc3. intros Hp. apply F2. ss.
    + lia.
    + intros q Hq. rewrite Hs3, Hw3. apply (frame_trans _ _ _ Fr1); [ss|done|done].
    + exists Ls. split_and!.
      * destruct Os as (a & b & Q1 & Q2 & Q3 & Q4 & Q5 & Q6). exists a, b. rewrite Hs3. split_and!; try done.
        rewrite Hl3. intros x Hx. apply elem_of_difference. split; [by apply Q6|]. intros Hx2.
        apply (Ds x Hx). rewrite Hl1. apply elem_of_union_l. done.
      * ss.
      * rewrite Hl3, Hl2, Hl1. apply set_rm; [by rewrite <-Hl1|done].
      * intros k Hk. destruct (decide (k < m_calls m1)); [apply A1|apply A2]; lia.
  - destruct H1 as (Lw & Ow & Dw & Hl1 & A1), H2 as (Hl2 & k & Hk & Hko).
    pose proof (owns_ws_frame _ _ _ _ Ow Fr2 ltac:(ss)) as Ow2.
    cbn. destruct (destroy_ws_ok m2 w Lw F2 Ow2) as (m3 & E3 & Hl3 & Hc3 & Hs3 & Hw3).
    change (destroy_tarjan_sccresult None m2) with (Ok (tt, m2)). cbn. rewrite E3. cbn.
    change (destroy_tarjan_workspace None m3) with (Ok (tt, m3)).
    eexists _, _. split; [done|]. cbn [snd]. split_and!.
    + intros p. rewrite Hl3, Hc3. intros Hp. apply F2. ss.
    + lia.
    + intros q Hq. rewrite Hs3, Hw3. apply (frame_trans _ _ _ Fr1); [ss|done|done].
    + rewrite Hl3, Hl2, ?Hl1. apply set_rm2; by rewrite <-?Hl1.
    + exists k. rewrite Hc3. split; [lia|done].
  - destruct H1 as (Hl1 & k & Hk & Hko), H2 as (Ls & Os & Ds & Hl2 & A2).
    destruct (destroy_scc_ok m2 s Ls F2 Os) as (m3 & E3 & Hl3 & Hc3 & Hs3 & Hw3). rewrite E3. cbn.
    eexists _, _. split; [done|]. cbn [snd]. split_and!.
    + intros p. rewrite Hl3, Hc3. intros Hp. apply F2. ss.
    + lia.
    + intros q Hq. rewrite Hs3, Hw3. apply (frame_trans _ _ _ Fr1); [ss|done|done].
    + rewrite Hl3, Hl2, ?Hl1. apply set_rm2; by rewrite <-?Hl1.
    + exists k. rewrite Hc3. split; [lia|done].
  - destruct H1 as (Hl1 & k & Hk & Hko), H2 as (Hl2 & _). cbn.
    eexists _, _. split; [done|]. cbn [snd]. split_and!; [done|lia| |congruence|].
    + apply (frame_trans _ _ _ Fr1); [ss|done].
    + exists k. split; [lia|done].
Qed.

Lemma reachable_mem_ok m w Lw : fresh_mem m → owns_ws m w Lw →
  ∃ r m', tarjan_reachable_sccs_mem ok (Some w) m = Ok (r, m') ∧ fresh_mem m' ∧
  m_calls m ≤ m_calls m' ∧ frame m m' ∧ owns_ws m' w Lw ∧
  match r with
  | None => m_live m' = m_live m ∧ some_failed ok m m'
  | Some p => ∃ L, owns_scc m' p L ∧ L ## m_live m ∧ m_live m' = L ∪ m_live m ∧ all_ok ok m m'
  end.
Proof.
  intros Hf Ow. unfold tarjan_reachable_sccs_mem. unfold mbind, bindM.
  pose proof Ow as (a & Q1 & Q2 & -> & Q4). unfold get_ws at 1. rewrite decide_True by ss. rewrite Q1.
  destruct (allocate_ok m Hf) as (s & m2 & E2 & F2 & C2 & Fr2 & H2). rewrite E2.
  destruct s as [s|].
  - destruct H2 as (Ls & Os & Ds & Hl2 & A2).
    pose proof (owns_ws_frame _ _ _ _ Ow Fr2 ltac:(ss)) as Ow2.
    rewrite (run_dfs_ok _ _ _ _ _ Ow2 Os). eexists _, _. split; [done|]. split_and!; eauto.
  - destruct H2 as (Hl2 & Hk). eexists _, _. split; [done|]. split_and!; eauto.
    apply (owns_ws_frame _ _ _ _ Ow Fr2). ss.
Qed.

Lemma reverse_mem_ok m p L : fresh_mem m → owns_scc m p L →
  ∃ b m', tarjan_reverse_sccresult_mem ok (Some p) m = Ok (b, m') ∧ fresh_mem m' ∧ m_calls m ≤ m_calls m' ∧
  if b : bool then all_ok ok m m' ∧
    ∃ L', owns_scc m' p L' ∧ m_live m' = (m_live m ∖ L) ∪ L' ∧ L' ## m_live m ∖ L
  else some_failed ok m m' ∧ owns_scc m' p L ∧ m_live m' = m_live m.
Proof.
  intros Hf Op. unfold tarjan_reverse_sccresult_mem. unfold mbind, bindM.
  pose proof Op as (s & v & H1 & H2 & H3 & H4 & -> & H6).
  unfold get_scc at 1. rewrite decide_True by ss. rewrite H1.
  unfold touch at 1. cbn [fst snd]. rewrite decide_True by ss.
  destruct (allocate_ok m Hf) as (r & m2 & E2 & F2 & C2 & Fr2 & G2). rewrite E2.
  destruct r as [r|].
  2:{ destruct G2 as (Hl2 & Hk). eexists _, _. split; [done|]. split_and!; try done.
      apply (owns_scc_frame _ _ _ _ Op Fr2). ss. }
  destruct G2 as (Lr & Or & Dr & Hl2 & A2).
  pose proof Or as (s' & v' & G1 & G2 & G3 & G4 & -> & G6).
  assert (p ≠ r) as Hpr by ss.
  assert (m_scc m2 !! p = Some ((Some s, Some v) : ptr * ptr)) as Hp2 by (rewrite (proj1 (Fr2 p ltac:(ss))); done).
  assert (p ∈ m_live m2 ∧ s ∈ m_live m2 ∧ v ∈ m_live m2 ∧ r ∈ m_live m2 ∧ s' ∈ m_live m2 ∧ v' ∈ m_live m2)
    as (M1 & M2 & M3 & M4 & M5 & M6).
  { assert (p ∈ m_live m ∧ s ∈ m_live m ∧ v ∈ m_live m) by (clear -H6; set_solver).
    clear -H G6 Hl2. set_solver. }
  unfold get_scc at 1. rewrite decide_True by done. rewrite G1.
  unfold touch. cbn [fst snd]. rewrite !decide_True by done.
  unfold swap_scc. memstep.
  rewrite decide_True by done. rewrite G1. rewrite decide_True by done. rewrite Hp2. cbn [fst snd].
  repeat (rewrite decide_True by done; cbn [m_live m_calls m_ws m_scc]).
  match goal with |- context [destroy_tarjan_sccresult _ ?mm] => set (m3 := mm) end.
  assert (m_scc m3 !! r = Some ((Some s, Some v) : ptr * ptr)) as Hr3.
  { unfold m3. cbn. rewrite lookup_insert_ne by done. apply lookup_insert. }
  destruct (destroy_scc_ok m3 r {[r; s; v]}) as (m4 & E4 & Hl4 & Hc4 & Hs4 & Hw4).
  { done. }
  { exists s, v. split_and!; [done| | |done|done|].
    - intros ->. apply (Dr s); clear -H6; set_solver.
    - intros ->. apply (Dr v); clear -H6; set_solver.
    - unfold m3. cbn. clear -M2 M3 M4. set_solver. }
  rewrite E4. eexists _, _. split; [done|]. split_and!.
  - intros q. rewrite Hl4, Hc4. intros Hq. unfold m3. cbn. apply F2. unfold m3 in Hq. cbn in Hq. ss.
  - rewrite Hc4. done.
  - intros k. rewrite Hc4. apply A2.
  - exists {[p; s'; v']}.
    assert (p ∈ m_live m ∧ s ∈ m_live m ∧ v ∈ m_live m) as (P1 & P2 & P3) by (clear -H6; set_solver).
    assert (r ∉ m_live m ∧ s' ∉ m_live m ∧ v' ∉ m_live m) as (N1 & N2 & N3) by (clear -Dr; set_solver).
    split_and!.
    + exists s', v'. rewrite Hs4. unfold m3 at 1. cbn [m_scc]. rewrite lookup_insert. split_and!; try done.
      * congruence.
      * congruence.
      * intros x Hx. rewrite Hl4. unfold m3. cbn [m_live].
        rewrite !elem_of_union, !elem_of_singleton in Hx.
        rewrite elem_of_difference, !elem_of_union, !elem_of_singleton.
        destruct Hx as [[->| ->]| ->]; (split; [done|]); intros [[?|?]|?]; congruence.
    + rewrite Hl4. unfold m3. cbn [m_live]. rewrite Hl2. apply set_eq. intros x.
      rewrite !elem_of_union, !elem_of_difference, !elem_of_union, !elem_of_singleton.
      destruct (decide (x = s)) as [->|]; [naive_solver congruence|].
      destruct (decide (x = v)) as [->|]; [naive_solver congruence|].
      destruct (decide (x = p)) as [->|]; [naive_solver congruence|].
      destruct (decide (x = r)) as [->|]; [naive_solver congruence|]. tauto.
    + intros x. rewrite elem_of_difference, !elem_of_union, !elem_of_singleton.
      intros [[->| ->]| ->] [? ?]; tauto.
Qed.

Lemma read_ok m p L : owns_scc m p L → read_result (Some p) m = Ok (tt, m).
Proof.
  intros (s & v & H1 & H2 & H3 & H4 & -> & H6). unfold read_result. memstep.
  rewrite decide_True by ss. rewrite H1. cbn. by rewrite !decide_True by ss.
Qed.

(** reverse, read, destroy: what both callers do with a non-NULL result *)
Lemma consume_ok m p L : fresh_mem m → owns_scc m p L →
  ∃ b m', (ok' ← tarjan_reverse_sccresult_mem ok (Some p);
           (if ok' : bool then read_result (Some p) else retM tt);;
           destroy_tarjan_sccresult (Some p);;
           retM ok') m = Ok (b, m') ∧ m_live m' = m_live m ∖ L ∧ m_calls m ≤ m_calls m' ∧
    (b = true ↔ all_ok ok m m').
Proof.
  intros Hf Op. unfold mbind, bindM.
  destruct (reverse_mem_ok m p L Hf Op) as (b & m2 & E2 & F2 & C2 & H2). rewrite E2.
  destruct b.
  - destruct H2 as (A2 & L' & Op2 & Hl2 & D2). rewrite (read_ok _ _ _ Op2).
    destruct (destroy_scc_ok m2 p L' F2 Op2) as (m3 & E3 & Hl3 & Hc3 & _). rewrite E3.
    eexists _, _. split; [done|]. split_and!; [rewrite Hl3, Hl2; ss|lia|].
    split; [|done]. intros _ k. rewrite Hc3. apply A2.
  - destruct H2 as ((k & Hk & Hko) & Op2 & Hl2). cbn.
    destruct (destroy_scc_ok m2 p L F2 Op2) as (m3 & E3 & Hl3 & Hc3 & _). rewrite E3.
    eexists _, _. split; [done|]. split_and!; [rewrite Hl3, Hl2; done|lia|].
    split; [done|]. intros Ha. rewrite (Ha k) in Hko; [done|lia].
Qed.

Lemma bind_Ok {A B} (c : M A) (k : A → M B) m a m1 : c m = Ok (a, m1) → (c ≫= k) m = k a m1.
Proof. intros H. unfold mbind, bindM. by rewrite H. Qed.

Lemma ordering_mem_ok m : fresh_mem m →
  (∃ b m', computeOrdering_mem ok m = Ok (b, m') ∧ m_live m' = m_live m ∧ (b = true ↔ all_ok ok m m')) ∨
  (computeOrdering_mem ok m = UB ∧ ∃ m1, tarjan_mem ok m = Ok (None, m1)).
Proof.
  intros Hf. unfold computeOrdering_mem.
  destruct (tarjan_mem_ok m Hf) as (r & m1 & E1 & F1 & C1 & Fr1 & H1). rewrite !(bind_Ok _ _ _ _ _ E1).
  destruct r as [p|]; [|right; split; [done|eauto]]. left.
  destruct H1 as (L & Op & D & Hl1 & A1).
  destruct (consume_ok m1 p L F1 Op) as (b & m2 & E2 & Hl2 & C2 & Hb). rewrite E2.
  eexists _, _. split; [done|]. split; [rewrite Hl2, Hl1; ss|]. rewrite Hb. split.
  - intros Ha k Hk. destruct (decide (k < m_calls m1)); [apply A1|apply Ha]; lia.
  - intros Ha k Hk. apply Ha. lia.
Qed.

Lemma local_ordering_mem_ok m : fresh_mem m →
  (∃ b m', computeLocalOrdering_mem ok m = Ok (b, m') ∧ m_live m' = m_live m ∧ (b = true ↔ all_ok ok m m')) ∨
  (computeLocalOrdering_mem ok m = AssertFail ∧ ∃ m1, create_tarjan_workspace ok m = Ok (None, m1)) ∨
  (computeLocalOrdering_mem ok m = UB ∧
     ∃ w m1 m2, create_tarjan_workspace ok m = Ok (Some w, m1) ∧ tarjan_reachable_sccs_mem ok (Some w) m1 = Ok (None, m2)).
Proof.
  intros Hf. unfold computeLocalOrdering_mem.
  destruct (create_ok m Hf) as (w & m1 & E1 & F1 & C1 & Fr1 & H1). rewrite !(bind_Ok _ _ _ _ _ E1).
  destruct w as [w|]; [|right; left; split; [done|eauto]]. destruct H1 as (Lw & Ow & Dw & Hl1 & A1).
  destruct (reachable_mem_ok m1 w Lw F1 Ow) as (r & m2 & E2 & F2 & C2 & Fr2 & Ow2 & H2).
  rewrite !(bind_Ok _ _ _ _ _ E2).
  destruct (destroy_ws_ok m2 w Lw F2 Ow2) as (m3 & E3 & Hl3 & Hc3 & Hs3 & Hw3).
  rewrite !(bind_Ok _ _ _ _ _ E3).
  destruct r as [p|]; [|right; right; split; [done|eauto 10]]. left.
  destruct H2 as (L & Op & D & Hl2 & A2).
  assert (owns_scc m3 p L) as Op3.
  { destruct Op as (a & b & Q1 & Q2 & Q3 & Q4 & Q5 & Q6). exists a, b. rewrite Hs3. split_and!; try done.
    rewrite Hl3. intros x Hx. apply elem_of_difference. split; [by apply Q6|]. intros Hx2.
    apply (D x Hx). rewrite Hl1. apply elem_of_union_l. done. }
  assert (fresh_mem m3) as F3 by (intros q; rewrite Hl3, Hc3; intros Hq; apply F2; ss).
  destruct (consume_ok m3 p L F3 Op3) as (b & m4 & E4 & Hl4 & C4 & Hb). rewrite E4.
  eexists _, _. split; [done|]. split; [rewrite Hl4, Hl3, Hl2, Hl1; ss|]. rewrite Hb. split.
  - intros Ha k Hk. destruct (decide (k < m_calls m1)); [apply A1; lia|]. destruct (decide (k < m_calls m2)); [apply A2|apply Ha]; lia.
  - intros Ha k Hk. apply Ha. lia.
Qed.
End alloc.
