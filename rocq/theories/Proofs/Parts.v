(** Components of a graph, of a part of it and of the graph turned round. *)
From Verif.Model Require Import Base Tarjan.
From Verif.Spec Require Import SccSpec TarjanSpec PartsSpec.
From Verif.Proofs Require Import Util TarjanTop.
Open Scope Z_scope.

Lemma result_unique s l l' : result_is s l → result_is s l' → l = l'.
Proof.
  intros [N H] [N' H']. assert (length l = length l') as HL by lia. apply list_eq. intros k.
  destruct (l !! k) as [C|] eqn:E.
  - destruct (l' !! k) as [D|] eqn:E'; [|apply lookup_ge_None in E'; apply lookup_lt_Some in E; lia].
    pose proof (H k C E) as A. rewrite (H' k D E') in A. congruence.
  - apply lookup_ge_None in E. symmetry. apply lookup_ge_None. lia.
Qed.

(** ** Lists of disjoint non-empty lists *)
Lemma elem_of_cat (x : Z) l : x ∈ concat l ↔ ∃ X, x ∈ X ∧ X ∈ l.
Proof. rewrite elem_of_list_In, in_concat. split; intros (X & A & B); exists X; by rewrite ?elem_of_list_In in *. Qed.
Lemma one_part (l : list (list Z)) k j C D u : NoDup (concat l) → l !! k = Some C → l !! j = Some D → u ∈ C → u ∈ D → k = j.
Proof.
  revert k j. induction l as [|X l IH]; intros k j N Hk Hj HC HD; [done|]. cbn in N. apply NoDup_app in N as (_ & N2 & N3).
  destruct k as [|k], j as [|j]; cbn in Hk, Hj; [done| | |f_equal; by apply IH].
  - injection Hk as ->. destruct (N2 u HC). apply elem_of_cat. exists D. split; [done|by eapply elem_of_list_lookup_2].
  - injection Hj as ->. destruct (N2 u HD). apply elem_of_cat. exists C. split; [done|by eapply elem_of_list_lookup_2].
Qed.
Lemma parts_match (l l' : list (list Z)) : NoDup (concat l) → NoDup (concat l') → Forall (λ C, C ≠ []) l → Forall (λ C, C ≠ []) l' →
  (∀ C, C ∈ l → ∃ D, D ∈ l' ∧ C ≡ₚ D) → (∀ D, D ∈ l' → ∃ C, C ∈ l ∧ C ≡ₚ D) → same_parts l l'.
Proof.
  revert l. induction l' as [|D l' IH]; intros l N N' E E' A B.
  - destruct l as [|C l]; [by exists []|]. destruct (A C ltac:(left)) as (D & HD & _). by apply elem_of_nil in HD.
  - destruct (B D ltac:(left)) as (C & HC & HCD). destruct (elem_of_Permutation l C) as [F _]. destruct (F HC) as [k Hk]. clear F.
    assert (NoDup (concat (C :: k))) as Nk by (rewrite <-Hk; exact N). cbn in Nk, N'. apply NoDup_app in Nk as (N1 & N2 & N3). apply NoDup_app in N' as (N4 & N5 & N6).
    rewrite Hk in E. apply Forall_cons in E as [E1 E2]. apply Forall_cons in E' as [E3 E4].
    assert (∀ (X Y : list Z), X ≠ [] → X ≡ₚ Y → ∃ x, x ∈ X ∧ x ∈ Y) as pick.
    { intros [|x X] Y HX HP; [done|]. exists x. split; [left|]. rewrite <-HP. left. }
    assert (∀ x X (m : list (list Z)), x ∈ X → X ∈ m → x ∈ concat m) as into by (intros; apply elem_of_cat; eauto).
    destruct (IH k) as (m & Hm & F); [done|done|done|done| | |].
    + intros X HX. destruct (A X) as (Y & HY & HXY); [rewrite Hk; by right|]. apply elem_of_cons in HY as [->|HY]; [|eauto].
      exfalso. rewrite <-HCD in HXY. destruct (pick C X E1 (Permutation_sym HXY)) as (x & Hx & Hx'). apply (N2 x Hx). eauto.
    + intros Y HY. destruct (B Y) as (X & HX & HXY); [by right|]. rewrite Hk in HX. apply elem_of_cons in HX as [->|HX]; [|eauto].
      exfalso. rewrite HCD in HXY. destruct (pick D Y E3 HXY) as (x & Hx & Hx'). apply (N5 x Hx). eauto.
    + exists (C :: m). split; [by rewrite Hk, Hm|by constructor].
Qed.

Lemma class_eq ia ja ia' ja' P P' l l' C v : is_sccs ia ja P l → is_sccs ia' ja' P' l' →
  (∀ u w, P u → P' u → (strong ia ja u w ↔ strong ia' ja' u w)) → C ∈ l → v ∈ C → P' v → ∃ D, D ∈ l' ∧ C ≡ₚ D.
Proof.
  intros S S' H HC Hv HP'. assert (P v) as HP by (apply (sc_cover _ _ _ _ S), elem_of_cat; eauto).
  apply (sc_cover _ _ _ _ S') in HP' as HD. apply elem_of_cat in HD as (D & HvD & HD). exists D. split; [done|].
  assert (∀ (X : list Z) m, NoDup (concat m) → X ∈ m → NoDup X) as nd.
  { intros X m Hn [k Hk]%elem_of_Permutation. rewrite Hk in Hn. cbn in Hn. by apply NoDup_app in Hn as (? & _). }
  apply NoDup_Permutation; [exact (nd _ _ (sc_nodup _ _ _ _ S) HC)|exact (nd _ _ (sc_nodup _ _ _ _ S') HD)|].
  intros w. rewrite (sc_strong _ _ _ _ S C v w HC Hv), (sc_strong _ _ _ _ S' D v w HD HvD). by apply H.
Qed.

Lemma sccs_same ia ja ia' ja' P l l' : is_sccs ia ja P l → is_sccs ia' ja' P l' →
  (∀ u w, P u → (strong ia ja u w ↔ strong ia' ja' u w)) → same_parts l l'.
Proof.
  intros S S' H. apply parts_match; [apply S|apply S'|apply S|apply S'| |].
  - intros C HC. pose proof (sc_nonempty _ _ _ _ S) as N. rewrite Forall_forall in N. destruct C as [|v C]; [by destruct (N [] HC)|].
    apply (class_eq ia ja ia' ja' P P l l' (v :: C) v S S'); [by auto|exact HC|left|]. apply (sc_cover _ _ _ _ S), elem_of_cat. exists (v :: C). split; [left|done].
  - intros D HD. pose proof (sc_nonempty _ _ _ _ S') as N. rewrite Forall_forall in N. destruct D as [|v D]; [by destruct (N [] HD)|].
    destruct (class_eq _ _ _ _ _ _ _ _ (v :: D) v S' S) as (C & HC & E); [|exact HD|left| |].
    + intros u w Hu _. by rewrite (H u w Hu).
    + apply (sc_cover _ _ _ _ S'), elem_of_cat. exists (v :: D). split; [left|done].
    + exists C. split; [done|]. by symmetry.
Qed.

(** ** A closed part of the graph *)
Lemma split_parts (P : Z → Prop) ia ja Q l : is_sccs ia ja Q l → (∀ v, v ∈ concat l → P v ∨ ¬ P v) → (∀ u v, P u → strong ia ja u v → P v) →
  ∃ kept rest, l ≡ₚ kept ++ rest ∧ (∀ C v, C ∈ kept → v ∈ C → P v) ∧ (∀ C v, C ∈ rest → v ∈ C → ¬ P v).
Proof.
  intros S Hdec Hcl.
  assert (∀ C, C ∈ l → (∀ v, v ∈ C → P v) ∨ (∀ v, v ∈ C → ¬ P v)) as one.
  { intros [|x C] HC; [left; intros v Hv; by apply elem_of_nil in Hv|].
    assert (x ∈ concat l) as Hx by (apply elem_of_cat; exists (x :: C); split; [left|done]).
    assert (∀ v, v ∈ x :: C → strong ia ja x v ∧ strong ia ja v x) as st.
    { intros v Hv. split; [apply (sc_strong _ _ _ _ S (x :: C) x v HC); [left|done]|]. apply (sc_strong _ _ _ _ S (x :: C) v x HC Hv). left. }
    destruct (Hdec x Hx) as [Px|Nx]; [left|right]; intros v Hv.
    - exact (Hcl x v Px (proj1 (st v Hv))).
    - intros Pv. apply Nx. exact (Hcl v x Pv (proj2 (st v Hv))). }
  clear S Hdec. induction l as [|C l IH].
  - exists [], []. split; [done|]. split; intros C v HC; by apply elem_of_nil in HC.
  - destruct IH as (k & r & Hl & Hk & Hr); [intros D HD; apply one; by right|].
    destruct (one C ltac:(left)) as [HC|HC].
    + exists (C :: k), r. split; [by rewrite Hl|]. split; [|exact Hr]. intros D v [->|HD]%elem_of_cons; [apply HC|by apply Hk].
    + exists k, (C :: r). split; [rewrite Hl; by rewrite Permutation_middle|]. split; [exact Hk|]. intros D v [->|HD]%elem_of_cons; [apply HC|by apply Hr].
Qed.

Lemma sccs_part ia ja P Q l l' : is_sccs ia ja Q l → is_sccs ia ja P l' → (∀ v, P v → Q v) → (∀ u v, P u → strong ia ja u v → P v) → parts_in P l l'.
Proof.
  intros S S' HPQ Hcl.
  destruct (split_parts P ia ja Q l S) as (k & r & Hl & Hk & Hr); [|exact Hcl|].
  { intros v _. destruct (decide (v ∈ concat l')) as [E|E]; [left|right]; by rewrite <-(sc_cover _ _ _ _ S'). }
  exists k, r. split; [exact Hl|]. split; [|done].
  apply (sccs_same ia ja ia ja P); [|exact S'|done]. split.
  - pose proof (sc_nodup _ _ _ _ S) as N. rewrite Hl, concat_app in N. by apply NoDup_app in N as (? & _).
  - intros v. split.
    + intros (C & Hv & HC)%elem_of_cat. exact (Hk C v HC Hv).
    + intros Pv. assert (v ∈ concat l) as Hv by (apply (sc_cover _ _ _ _ S); auto). rewrite Hl, concat_app in Hv. apply elem_of_app in Hv as [Hv|Hv]; [done|].
      apply elem_of_cat in Hv as (C & Hv & HC). by destruct (Hr C v HC Hv).
  - pose proof (sc_nonempty _ _ _ _ S) as N. rewrite Hl in N. by apply Forall_app in N as [? _].
  - intros C u v HC. apply (sc_strong _ _ _ _ S C u v). rewrite Hl. apply elem_of_app. by left.
Qed.

(** ** Graphs with the same or opposite edges *)
Section walks.
Context (nv : Z) (ia ja ia' ja' : list Z) (WF : wf_graph nv ia ja) (WF' : wf_graph nv ia' ja').
Lemma reach_in ib jb u v : wf_graph nv ib jb → 0 ≤ u < nv → reach ib jb u v → 0 ≤ v < nv.
Proof. intros W Hu H. induction H as [|x y z E H IH]; [done|]. apply IH. exact (wf_ja _ _ _ W x y Hu E). Qed.
Lemma reach_same u v : same_edges nv ia ja ia' ja' → 0 ≤ u < nv → reach ia ja u v → reach ia' ja' u v.
Proof.
  intros H Hu R. induction R as [|x y z E R IH]; [constructor|]. pose proof (wf_ja _ _ _ WF x y Hu E) as Hy.
  eapply rtc_l; [apply H; [exact Hu|exact Hy|exact E]|by apply IH].
Qed.
Lemma reach_opposite u v : opposite_edges nv ia ja ia' ja' → 0 ≤ u < nv → reach ia ja u v → reach ia' ja' v u.
Proof.
  intros H Hu R. induction R as [|x y z E R IH]; [constructor|]. pose proof (wf_ja _ _ _ WF x y Hu E) as Hy.
  eapply rtc_r; [by apply IH|]. by apply H.
Qed.
End walks.

Lemma strong_same nv ia ja ia' ja' u v : wf_graph nv ia ja → wf_graph nv ia' ja' → same_edges nv ia ja ia' ja' → 0 ≤ u < nv →
  strong ia ja u v ↔ strong ia' ja' u v.
Proof.
  intros W W' H Hu. assert (same_edges nv ia' ja' ia ja) as H' by (intros x y Hx Hy; symmetry; by apply H).
  split; intros [A B]; (assert (0 ≤ v < nv) as Hv by (eapply reach_in; [| |exact A]; done)); split; eauto using reach_same.
Qed.
Lemma strong_opposite nv ia ja ia' ja' u v : wf_graph nv ia ja → wf_graph nv ia' ja' → opposite_edges nv ia ja ia' ja' → 0 ≤ u < nv →
  strong ia ja u v ↔ strong ia' ja' u v.
Proof.
  intros W W' H Hu. assert (opposite_edges nv ia' ja' ia ja) as H' by (intros x y Hx Hy; symmetry; by apply H).
  split; intros [A B]; (assert (0 ≤ v < nv) as Hv by (eapply reach_in; [| |exact A]; done)); split; eauto using reach_opposite.
Qed.

(** ** The functions *)
Lemma tarjan_sccs h nv ia ja s l : wf_graph nv ia ja → tarjan h nv ia ja = Ok (Some s) → result_is s l →
  is_sccs ia ja (λ v, 0 ≤ v < nv) l ∧ reverse_topological ia ja l.
Proof.
  intros W H R. assert (ws_ok h 0 = true ∧ scc_ok h 2 = true) as [H1 H2].
  { unfold tarjan in H. destruct (ws_ok h 0), (scc_ok h 2); cbn in H; done. }
  destruct (tarjan_correct h nv ia ja W H1 H2) as (s' & l' & E & R' & T). rewrite H in E. injection E as <-. by rewrite (result_unique _ _ _ R R').
Qed.
Lemma reachable_sccs h nv ia ja nw w w' starts s l : wf_graph nv ia ja → ws_sized nw w → nv ≤ nw → (∀ r, r ∈ starts → 0 ≤ r < nv) →
  tarjan_reachable_sccs h nv ia ja starts w = Ok (w', Some s) → result_is s l → is_sccs ia ja (λ v, ∃ r, r ∈ starts ∧ reach ia ja r v) l.
Proof.
  intros W Hw Hn Hs H R. assert (scc_ok h 5 = true) as H1.
  { unfold tarjan_reachable_sccs in H. destruct Hw as (E & _). rewrite E, (proj2 (Z.leb_le _ _) Hn) in H. cbn in H. by destruct (scc_ok h 5). }
  destruct (reachable_correct h nv ia ja nw w starts W Hw Hn Hs H1) as (w1 & s' & l' & E & R' & T & _). rewrite H in E. injection E as _ <-. by rewrite (result_unique _ _ _ R R').
Qed.

Lemma reachable_part h h' nv ia ja nw w w' starts s s' l l' : wf_graph nv ia ja → ws_sized nw w → nv ≤ nw → (∀ r, r ∈ starts → 0 ≤ r < nv) →
  tarjan h nv ia ja = Ok (Some s) → result_is s l → tarjan_reachable_sccs h' nv ia ja starts w = Ok (w', Some s') → result_is s' l' →
  parts_in (λ v, ∃ r, r ∈ starts ∧ reach ia ja r v) l l'.
Proof.
  intros W Hw Hn Hs H R H' R'. destruct (tarjan_sccs _ _ _ _ _ _ W H R) as [S _]. pose proof (reachable_sccs _ _ _ _ _ _ _ _ _ _ W Hw Hn Hs H' R') as S'.
  eapply sccs_part; [exact S|exact S'| |].
  - intros v (r & Hr & Hv). eapply reach_in; [exact W|exact (Hs r Hr)|exact Hv].
  - intros u v (r & Hr & Hu) [Huv _]. exists r. split; [done|]. by etrans.
Qed.

Lemma reversed_order ia ja ia' ja' nv l : wf_graph nv ia ja → wf_graph nv ia' ja' → opposite_edges nv ia ja ia' ja' → is_sccs ia ja (λ v, 0 ≤ v < nv) l →
  reverse_topological ia ja l → is_sccs ia' ja' (λ v, 0 ≤ v < nv) (reverse l) ∧ reverse_topological ia' ja' (reverse l).
Proof.
  intros W W' H SC T.
  assert (∀ C v, C ∈ l → v ∈ C → 0 ≤ v < nv) as rng by (intros; apply (sc_cover _ _ _ _ SC), elem_of_cat; eauto). split.
  - assert (concat (reverse l) ≡ₚ concat l) as P by (by rewrite reverse_Permutation). split.
    + rewrite P. apply SC.
    + intros v. rewrite P. apply SC.
    + rewrite reverse_Permutation. apply SC.
    + intros C u v HC Hu. rewrite elem_of_reverse in HC. rewrite (sc_strong _ _ _ _ SC C u v HC Hu). eapply strong_opposite; eauto.
  - intros i C u v HC Hu E. apply reverse_lookup_Some in HC as [HC Hi].
    assert (0 ≤ u < nv) as Hun by (eapply rng; [by eapply elem_of_list_lookup_2|exact Hu]). pose proof (wf_ja _ _ _ W' u v Hun E) as Hvn.
    assert (edge ia ja v u) as E' by (by apply H).
    apply (sc_cover _ _ _ _ SC) in Hvn as Hv. apply elem_of_cat in Hv as (D & HvD & HD). apply elem_of_list_lookup in HD as [j Hj].
    destruct (T j D v u Hj HvD E') as (k & C' & Hk & Hu' & Hle).
    assert (k = length l - S i)%nat as Hk' by exact (one_part l k _ C' C u (sc_nodup _ _ _ _ SC) Hk HC Hu' Hu).
    apply lookup_lt_Some in Hj as Hjl. exists (length l - S j)%nat, D. split; [|split; [done|lia]].
    apply reverse_lookup_Some. replace (length l - S (length l - S j))%nat with j by lia. split; [done|lia].
Qed.
