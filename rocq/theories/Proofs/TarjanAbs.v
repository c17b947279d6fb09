(** The abstract machine behind tarjan.c: the two stacks and the list of finished
    components as lists, the per-vertex arrays as functions. *)
From Verif.Proofs Require Import Util.
From stdpp Require Import relations.
Open Scope Z_scope.

Definition upd (f : Z → Z) (k x : Z) : Z → Z := λ u, if decide (u = k) then x else f u.
Lemma upd_eq f k x : upd f k x k = x.
Proof. unfold upd. by rewrite decide_True. Qed.
Lemma upd_ne f k x u : u ≠ k → upd f k x u = f u.
Proof. intros. unfold upd. by rewrite decide_False. Qed.

(** Split the stack [l] after the first occurrence of [c]. *)
Fixpoint upto (c : Z) (l : list Z) : list Z * list Z :=
  match l with
  | [] => ([], [])
  | x :: l' => if decide (x = c) then ([x], l') else (x :: (upto c l').1, (upto c l').2)
  end.
Lemma upto_app c l : (upto c l).1 ++ (upto c l).2 = l.
Proof. induction l as [|x l IH]; cbn; [done|]. case_decide; cbn; [done|]. by f_equal. Qed.
Lemma upto_spec c p r : c ∉ p → upto c (p ++ c :: r) = (p ++ [c], r).
Proof.
  induction p as [|x p IH]; cbn; intros H; [by rewrite decide_True|].
  rewrite decide_False by set_solver. rewrite IH by set_solver. done.
Qed.

Fixpoint sumZ (f : Z → Z) (l : list Z) : Z :=
  match l with [] => 0 | v :: l' => f v + sumZ f l' end.
Lemma sumZ_ext f g l : (∀ v, v ∈ l → f v = g v) → sumZ f l = sumZ g l.
Proof.
  induction l as [|x l IH]; intros H; cbn; [done|]. rewrite H, IH; set_solver.
Qed.
Lemma sumZ_nonneg f l : (∀ v, v ∈ l → 0 ≤ f v) → 0 ≤ sumZ f l.
Proof.
  induction l as [|x l IH]; intros H; cbn; [lia|].
  assert (0 ≤ f x) by (apply H; set_solver). assert (0 ≤ sumZ f l) by (apply IH; set_solver). lia.
Qed.
Lemma sumZ_upd f g l c d : NoDup l → c ∈ l → f c = g c + d → (∀ v, v ≠ c → f v = g v) →
  sumZ f l = sumZ g l + d.
Proof.
  induction 1 as [|x l Hx Hnd IH]; [set_solver|]. intros Hc Hd Hne. cbn.
  destruct (decide (x = c)) as [->|Hxc].
  - rewrite Hd, (sumZ_ext f g l); [lia|]. intros v Hv. apply Hne. set_solver.
  - rewrite (Hne x), IH; [lia|set_solver|done|done|done].
Qed.
Lemma sumZ_add f g l : sumZ (λ v, f v + g v) l = sumZ f l + sumZ g l.
Proof. induction l as [|x l IH]; cbn; lia. Qed.

Definition seg_S (segs : list (list Z * Z)) : list Z := concat (map (λ s, s.1 ++ [s.2]) segs).

Lemma seg_S_cons fs g segs : seg_S ((fs, g) :: segs) = fs ++ g :: seg_S segs.
Proof. unfold seg_S. cbn. by rewrite <-app_assoc. Qed.
Lemma seg_S_elem segs x : x ∈ seg_S segs ↔ ∃ fs g, (fs, g) ∈ segs ∧ (x ∈ fs ∨ x = g).
Proof.
  induction segs as [|[fs g] segs IH].
  - cbn. set_solver.
  - rewrite seg_S_cons, elem_of_app, elem_of_cons, IH. split.
    + intros [H|[H|(fs' & g' & H1 & H2)]]; [exists fs, g; set_solver..|exists fs', g'; set_solver].
    + intros (fs' & g' & [[= -> ->]|H1]%elem_of_cons & H2); [set_solver|]. right. right. eauto.
Qed.
Lemma seg_snd_elem segs g : g ∈ map snd segs → g ∈ seg_S segs.
Proof.
  intros ([fs g'] & -> & H)%elem_of_list_fmap. apply seg_S_elem. eauto.
Qed.

Lemma sorted_app_lt {A} (R : A → A → Prop) l1 l2 x y : StronglySorted R (l1 ++ l2) → x ∈ l1 → y ∈ l2 → R x y.
Proof.
  induction l1 as [|z l1 IH]; cbn; [set_solver|]. intros Hs Hx Hy. inv Hs.
  apply elem_of_cons in Hx as [->|Hx]; [|auto].
  rewrite Forall_forall in H2. apply H2. set_solver.
Qed.
Lemma sorted_app_r {A} (R : A → A → Prop) l1 l2 : StronglySorted R (l1 ++ l2) → StronglySorted R l2.
Proof. induction l1 as [|z l1 IH]; cbn; [done|]. intros Hs. inv Hs. auto. Qed.
Lemma sorted_ext {A} (R R' : A → A → Prop) l : (∀ x y, x ∈ l → y ∈ l → R x y → R' x y) →
  StronglySorted R l → StronglySorted R' l.
Proof.
  intros H Hs. induction Hs as [|x l Hl IH Hx]; constructor.
  - apply IH. set_solver.
  - rewrite Forall_forall in *. intros y Hy. apply H; [set_solver..|auto].
Qed.

Section abs.
Context (E : Z → list Z) (nv : Z).
Definition in_rows : Prop := ∀ v w, 0 ≤ v < nv → w ∈ E v → 0 ≤ w < nv.

Definition deg (v : Z) : Z := Z.of_nat (length (E v)).
Definition edg (u v : Z) : Prop := v ∈ E u.
Notation rch := (rtc edg).

Record am := mkAm {
  a_comps : list (list Z);
  a_V : list Z; a_S : list Z;
  a_st : Z → Z; a_lk : Z → Z; a_tm : Z → Z;
  a_clk : Z
}.

Definition a_discover (a : am) (c : Z) : am :=
  mkAm (a_comps a) (a_V a) (c :: a_S a) (upd (a_st a) c (deg c))
       (upd (a_lk a) c (a_clk a)) (upd (a_tm a) c (a_clk a)) (a_clk a + 1).

Definition a_capture (a : am) (c : Z) : am :=
  mkAm (a_comps a ++ [(upto c (a_S a)).1]) (a_V a) (upto c (a_S a)).2
       (λ u, if decide (u ∈ (upto c (a_S a)).1) then -2 else a_st a u)
       (a_lk a) (a_tm a) (a_clk a).

Definition a_pop (a : am) (c : Z) : am :=
  mkAm (a_comps a) (tl (a_V a)) (a_S a) (a_st a)
       (match tl (a_V a) with
        | [] => a_lk a
        | v :: _ => upd (a_lk a) v (Z.min (a_lk a v) (a_lk a c))
        end) (a_tm a) (a_clk a).

Definition a_complete (a : am) (c : Z) : am :=
  a_pop (if decide (a_lk a c = a_tm a c) then a_capture a c else a) c.

Definition a_child (a : am) (c : Z) : Z := default 0 (E c !! Z.to_nat (a_st a c - 1)).
Definition a_descend (a : am) (c : Z) : am :=
  let ch := a_child a c in
  let st' := upd (a_st a) c (a_st a c - 1) in
  if decide (st' ch = -1) then mkAm (a_comps a) (ch :: a_V a) (a_S a) st' (a_lk a) (a_tm a) (a_clk a)
  else if decide (0 ≤ st' ch) then
    mkAm (a_comps a) (a_V a) (a_S a) st' (upd (a_lk a) c (Z.min (a_lk a c) (a_tm a ch))) (a_tm a) (a_clk a)
  else mkAm (a_comps a) (a_V a) (a_S a) st' (a_lk a) (a_tm a) (a_clk a).

Definition a_iter (a : am) : am :=
  match a_V a with
  | [] => a
  | c :: _ =>
      let a1 := if decide (a_st a c = -1) then a_discover a c else a in
      if decide (a_st a1 c = 0) then a_complete a1 c else a_descend a1 c
  end.

Fixpoint a_loop (fuel : nat) (a : am) : am :=
  match fuel with
  | O => a
  | S f => match a_V a with [] => a | _ => a_loop f (a_iter a) end
  end.

(** ** The invariant.  [segs]: the DFS path from its end to the start, each path
    vertex with the finished vertices above it on the component stack. *)
Record Inv (a : am) (segs : list (list Z * Z)) (pend : option Z) (R : list Z) : Prop := {
  i_V : a_V a = option_list pend ++ map snd segs;
  i_S : a_S a = seg_S segs;
  i_nd : NoDup (concat (a_comps a) ++ a_S a);
  i_rng : ∀ v, v ∈ concat (a_comps a) ++ a_S a ++ a_V a → 0 ≤ v < nv;
  i_done : ∀ v, v ∈ concat (a_comps a) ↔ a_st a v = -2;
  i_act : ∀ v, v ∈ a_S a ↔ 0 ≤ a_st a v;
  i_low : ∀ v, -2 ≤ a_st a v;
  i_deg : ∀ v, v ∈ a_S a → a_st a v ≤ deg v;
  i_pend : ∀ w, pend = Some w → a_st a w = -1;
  i_pedge : ∀ w fs g segs', pend = Some w → segs = (fs, g) :: segs' → edg g w;
  i_sort : StronglySorted (λ u v, a_tm a v < a_tm a u) (a_S a);
  i_clk : ∀ v, v ∈ a_S a → 0 ≤ a_tm a v < a_clk a;
  i_cnt : 0 ≤ a_clk a ≤ Z.of_nat (length (a_S a)) + Z.of_nat (length (concat (a_comps a)));
  i_fs : ∀ fs g x, (fs, g) ∈ segs → x ∈ fs →
           a_st a x = 0 ∧ rch g x ∧ a_lk a g ≤ a_lk a x ∧ a_lk a x < a_tm a x;
  i_link : ∀ v, v ∈ a_S a → a_lk a v ≤ a_tm a v ∧ ∃ u, u ∈ a_S a ∧ a_tm a u = a_lk a v ∧ rch v u;
  i_path : ∀ l1 s1 s2 l2, segs = l1 ++ s1 :: s2 :: l2 → rch s2.2 s1.2;
  i_edges : ∀ x w, x ∈ a_S a → w ∈ drop (Z.to_nat (a_st a x)) (E x) →
              a_st a w = -2 ∨ (w ∈ a_S a ∧ a_lk a x ≤ a_tm a w) ∨ pend = Some w;
  i_comps : ∀ l1 C l2, a_comps a = l1 ++ C :: l2 →
              C ≠ [] ∧ (∀ u v, u ∈ C → v ∈ C → rch u v) ∧
              (∀ u w, u ∈ C → w ∈ E u → w ∈ concat l1 ++ C);
  i_root1 : ∀ r, r ∈ R → r ∈ concat (a_comps a) ++ a_S a ++ a_V a;
  i_root2 : ∀ v, v ∈ concat (a_comps a) ++ a_S a ++ a_V a → ∃ r, r ∈ R ∧ rch r v
}.

(** ** Discover *)
Lemma inv_discover a segs w R : Inv a segs (Some w) R →
  Inv (a_discover a w) (([], w) :: segs) None R.
Proof.
  intros I.
  assert (a_st a w = -1) as Hw by by apply (i_pend _ _ _ _ I).
  assert (w ∉ a_S a) as HwS by (rewrite (i_act _ _ _ _ I); lia).
  assert (w ∉ concat (a_comps a)) as HwC by (rewrite (i_done _ _ _ _ I); lia).
  pose proof (i_V _ _ _ _ I) as HV. cbn in HV.
  assert (0 ≤ w < nv) as Hwr by (apply (i_rng _ _ _ _ I); rewrite HV; set_solver).
  assert (∀ v, v ∈ a_S a → v ≠ w) as Hne by set_solver.
  constructor; cbn [a_comps a_V a_S a_st a_lk a_tm a_clk a_discover option_list app map].
  - by rewrite HV.
  - rewrite (i_S _ _ _ _ I). done.
  - apply NoDup_Permutation_proper with (w :: concat (a_comps a) ++ a_S a).
    + symmetry. apply Permutation_middle.
    + constructor; [set_solver|apply I].
  - intros v Hv. destruct (decide (v = w)) as [->|]; [done|]. apply (i_rng _ _ _ _ I). set_solver.
  - intros v. unfold upd. case_decide as Hd.
    + subst. split; [done|]. unfold deg. lia.
    + apply I.
  - intros v. rewrite elem_of_cons. unfold upd. case_decide as Hd.
    + subst. unfold deg. split; [lia|by left].
    + rewrite (i_act _ _ _ _ I). naive_solver.
  - intros v. unfold upd. case_decide; [unfold deg; lia|apply I].
  - intros v Hv. unfold upd. case_decide; [by subst|]. apply I. set_solver.
  - done.
  - done.
  - constructor.
    + eapply sorted_ext; [|apply I]. cbn. intros x y Hx Hy. by rewrite !upd_ne by auto.
    + apply Forall_forall. intros y Hy. rewrite upd_eq, upd_ne by auto.
      by apply (i_clk _ _ _ _ I).
  - pose proof (i_cnt _ _ _ _ I). intros v [->|Hv]%elem_of_cons.
    + rewrite upd_eq. lia.
    + rewrite upd_ne by auto. pose proof (i_clk _ _ _ _ I v Hv). lia.
  - pose proof (i_cnt _ _ _ _ I). cbn. lia.
  - intros fs g x Hs Hx. apply elem_of_cons in Hs as [[= -> ->]|Hs]; [set_solver|].
    assert (x ∈ a_S a) by (rewrite (i_S _ _ _ _ I), seg_S_elem; eauto).
    assert (g ∈ a_S a) by (rewrite (i_S _ _ _ _ I), seg_S_elem; eauto).
    rewrite !upd_ne by auto. by apply (i_fs _ _ _ _ I fs g x).
  - intros v [->|Hv]%elem_of_cons.
    + rewrite !upd_eq. split; [lia|]. exists w. rewrite upd_eq. split_and!; [set_solver|done|done].
    + rewrite !upd_ne by auto. destruct (i_link _ _ _ _ I v Hv) as (H1 & u & H2 & H3 & H4).
      split; [done|]. exists u. rewrite upd_ne by auto. split_and!; [set_solver|done|done].
  - intros l1 s1 s2 l2 Hs. destruct l1 as [|s0 l1]; cbn in Hs.
    + injection Hs as <- Hs. destruct s2 as [fs g]. cbn.
      apply rtc_once. by eapply (i_pedge _ _ _ _ I).
    + injection Hs as _ Hs. by eapply (i_path _ _ _ _ I).
  - intros x u [->|Hx]%elem_of_cons Hu.
    + rewrite upd_eq in Hu. unfold deg in Hu. rewrite Nat2Z.id, drop_all in Hu. set_solver.
    + rewrite upd_ne in Hu by auto.
      destruct (decide (u = w)) as [->|Huw].
      * right. left. split; [set_solver|]. rewrite upd_eq, upd_ne by auto.
        pose proof (i_link _ _ _ _ I x Hx) as [? _]. pose proof (i_clk _ _ _ _ I x Hx). lia.
      * destruct (i_edges _ _ _ _ I x u Hx Hu) as [H|[[H1 H2]|H]].
        -- left. by rewrite upd_ne.
        -- right. left. split; [set_solver|]. by rewrite !upd_ne by auto.
        -- congruence.
  - apply I.
  - intros r Hr%(i_root1 _ _ _ _ I). set_solver.
  - intros v Hv. apply (i_root2 _ _ _ _ I). rewrite HV in *. set_solver.
Qed.

(** ** Process one edge *)
Lemma inv_descend (HE : in_rows) a fs c segs R : Inv a ((fs, c) :: segs) None R → 0 < a_st a c →
  ∃ pend, Inv (a_descend a c) ((fs, c) :: segs) pend R.
Proof.
  intros I Hst.
  assert (c ∈ a_S a) as HcS by (apply (i_act _ _ _ _ I); lia).
  assert (0 ≤ c < nv) as Hcr by (apply (i_rng _ _ _ _ I); set_solver).
  pose proof (i_deg _ _ _ _ I c HcS) as Hdeg. unfold deg in Hdeg.
  pose proof (i_V _ _ _ _ I) as HV. cbn in HV.
  set (k := Z.to_nat (a_st a c - 1)).
  destruct (lookup_lt_is_Some_2 (E c) k) as [ch Hch]; [lia|].
  assert (a_child a c = ch) as Hchild by (unfold a_child; fold k; by rewrite Hch).
  assert (ch ∈ E c) as HchE by by eapply elem_of_list_lookup_2.
  assert (0 ≤ ch < nv) as Hchr by by apply (HE c).
  assert (drop (Z.to_nat (a_st a c - 1)) (E c) = ch :: drop (Z.to_nat (a_st a c)) (E c)) as Hdrop.
  { fold k. rewrite (drop_S _ _ _ Hch). do 2 f_equal. lia. }
  set (st' := upd (a_st a) c (a_st a c - 1)).
  assert (st' c = a_st a c - 1) as Hc' by apply upd_eq.
  assert (∀ u, u ≠ c → st' u = a_st a u) as Hne' by (intros; by apply upd_ne).
  assert (∀ v, v ∈ concat (a_comps a) ↔ st' v = -2) as Hdone'.
  { intros v. destruct (decide (v = c)) as [->|Hv]; [|rewrite Hne' by done; apply I].
    rewrite Hc', (i_done _ _ _ _ I). lia. }
  assert (∀ v, v ∈ a_S a ↔ 0 ≤ st' v) as Hact'.
  { intros v. destruct (decide (v = c)) as [->|Hv]; [|rewrite Hne' by done; apply I].
    rewrite Hc'. split; [lia|done]. }
  assert (∀ v, -2 ≤ st' v) as Hlow'.
  { intros v. destruct (decide (v = c)) as [->|Hv]; [lia|rewrite Hne' by done; apply I]. }
  assert (∀ v, v ∈ a_S a → st' v ≤ deg v) as Hdeg'.
  { intros v Hv. destruct (decide (v = c)) as [->|Hvc]; [unfold deg; lia|].
    rewrite Hne' by done. by apply I. }
  assert (∀ fs0 g x, (fs0, g) ∈ (fs, c) :: segs → x ∈ fs0 → x ≠ c) as Hfsc.
  { intros fs0 g x Hs Hx ->. destruct (i_fs _ _ _ _ I fs0 g c Hs Hx). lia. }
  unfold a_descend. rewrite Hchild. cbn zeta. fold st'.
  destruct (decide (st' ch = -1)) as [Hrem|Hrem]; [|destruct (decide (0 ≤ st' ch)) as [Hin|Hin]].
  - (* push the child *)
    exists (Some ch).
    assert (ch ≠ c) as Hchc by (intros ->; lia).
    constructor; cbn [a_comps a_V a_S a_st a_lk a_tm a_clk option_list app map].
    + by rewrite HV.
    + apply I.
    + apply I.
    + intros v Hv. destruct (decide (v = ch)) as [->|]; [done|]. apply (i_rng _ _ _ _ I). set_solver.
    + done.
    + done.
    + done.
    + done.
    + intros w [= <-]. done.
    + intros w fs0 g segs0 [= <-] [= <- <- <-]. done.
    + apply I.
    + apply I.
    + apply I.
    + intros fs0 g x Hs Hx. rewrite Hne' by eauto. by eapply (i_fs _ _ _ _ I).
    + apply I.
    + apply (i_path _ _ _ _ I).
    + intros x w Hx Hw. destruct (decide (x = c)) as [->|Hxc].
      * rewrite Hc', Hdrop in Hw. apply elem_of_cons in Hw as [->|Hw]; [by right; right|].
        destruct (i_edges _ _ _ _ I c w Hx Hw) as [H|[H|H]]; [|by right; left|done].
        left. by rewrite <-Hdone', (i_done _ _ _ _ I).
      * rewrite Hne' in Hw by done.
        destruct (i_edges _ _ _ _ I x w Hx Hw) as [H|[H|H]]; [|by right; left|done].
        left. by rewrite <-Hdone', (i_done _ _ _ _ I).
    + apply (i_comps _ _ _ _ I).
    + intros r Hr%(i_root1 _ _ _ _ I). set_solver.
    + intros v Hv. destruct (decide (v = ch)) as [->|]; [|apply (i_root2 _ _ _ _ I); set_solver].
      destruct (i_root2 _ _ _ _ I c) as (r & Hr & Hrc); [set_solver|].
      exists r. split; [done|]. by eapply rtc_r.
  - (* a vertex on the stack *)
    exists None. apply Hact' in Hin as HchS.
    set (lk' := upd (a_lk a) c (Z.min (a_lk a c) (a_tm a ch))).
    assert (lk' c = Z.min (a_lk a c) (a_tm a ch)) as Hlc by apply upd_eq.
    assert (∀ u, u ≠ c → lk' u = a_lk a u) as Hlne by (intros; by apply upd_ne).
    assert (∀ u, lk' u ≤ a_lk a u) as Hle.
    { intros u. destruct (decide (u = c)) as [->|]; [lia|]. rewrite Hlne by done. lia. }
    constructor; cbn [a_comps a_V a_S a_st a_lk a_tm a_clk option_list app map].
    + done.
    + apply I.
    + apply I.
    + apply I.
    + done.
    + done.
    + done.
    + done.
    + done.
    + done.
    + apply I.
    + apply I.
    + apply I.
    + intros fs0 g x Hs Hx. rewrite Hne', (Hlne x) by eauto.
      destruct (i_fs _ _ _ _ I fs0 g x Hs Hx) as (H1 & H2 & H3 & H4). specialize (Hle g). split_and!; [done..|lia|done].
    + intros v Hv. destruct (i_link _ _ _ _ I v Hv) as (H1 & u & H2 & H3 & H4).
      specialize (Hle v) as Hlv. split; [lia|]. destruct (decide (v = c)) as [->|Hvc].
      * rewrite Hlc. destruct (Z.min_spec (a_lk a c) (a_tm a ch)) as [[_ ->]|[_ ->]]; [eauto|].
        exists ch. split_and!; [done|done|]. by apply rtc_once.
      * rewrite Hlne by done. eauto.
    + apply (i_path _ _ _ _ I).
    + intros x w Hx Hw. destruct (decide (x = c)) as [->|Hxc].
      * rewrite Hc', Hdrop in Hw. apply elem_of_cons in Hw as [->|Hw].
        { right. left. split; [done|lia]. }
        destruct (i_edges _ _ _ _ I c w Hx Hw) as [H|[[H1 H2]|H]]; [|right; left; split; [done|lia]|done].
        left. by rewrite <-Hdone', (i_done _ _ _ _ I).
      * rewrite Hne' in Hw by done. rewrite Hlne by done.
        destruct (i_edges _ _ _ _ I x w Hx Hw) as [H|[H|H]]; [|by right; left|done].
        left. by rewrite <-Hdone', (i_done _ _ _ _ I).
    + apply (i_comps _ _ _ _ I).
    + apply I.
    + apply I.
  - (* a finished vertex *)
    exists None. assert (st' ch = -2) as Hch2 by (specialize (Hlow' ch); lia).
    constructor; cbn [a_comps a_V a_S a_st a_lk a_tm a_clk option_list app map].
    + done.
    + apply I.
    + apply I.
    + apply I.
    + done.
    + done.
    + done.
    + done.
    + done.
    + done.
    + apply I.
    + apply I.
    + apply I.
    + intros fs0 g x Hs Hx. rewrite Hne' by eauto. by eapply (i_fs _ _ _ _ I).
    + apply I.
    + apply (i_path _ _ _ _ I).
    + intros x w Hx Hw. destruct (decide (x = c)) as [->|Hxc].
      * rewrite Hc', Hdrop in Hw. apply elem_of_cons in Hw as [->|Hw]; [by left|].
        destruct (i_edges _ _ _ _ I c w Hx Hw) as [H|[H|H]]; [|by right; left|done].
        left. by rewrite <-Hdone', (i_done _ _ _ _ I).
      * rewrite Hne' in Hw by done.
        destruct (i_edges _ _ _ _ I x w Hx Hw) as [H|[H|H]]; [|by right; left|done].
        left. by rewrite <-Hdone', (i_done _ _ _ _ I).
    + apply (i_comps _ _ _ _ I).
    + apply I.
    + apply I.
Qed.

(** ** Complete a vertex that is not the root of a component *)
Lemma inv_merge a fs c segs R : Inv a ((fs, c) :: segs) None R → a_st a c = 0 → a_lk a c ≠ a_tm a c →
  ∃ segs', Inv (a_pop a c) segs' None R.
Proof.
  intros I Hst Hlt.
  assert (c ∈ a_S a) as HcS by (apply (i_act _ _ _ _ I); lia).
  pose proof (i_V _ _ _ _ I) as HV. cbn in HV.
  pose proof (i_S _ _ _ _ I) as HS. rewrite seg_S_cons in HS.
  pose proof (i_sort _ _ _ _ I) as Hsort.
  destruct (i_link _ _ _ _ I c HcS) as (Hle & u & HuS & Htu & Hru).
  assert (u ∈ seg_S segs) as Hu.
  { rewrite HS in HuS, Hsort. apply elem_of_app in HuS as [Hf|[->|Hf]%elem_of_cons]; [|lia|done].
    pose proof (sorted_app_lt _ _ _ u c Hsort Hf ltac:(set_solver)) as Hc. cbn in Hc. lia. }
  destruct segs as [|[fsp p] segs]; [set_solver|]. exists ((fs ++ c :: fsp, p) :: segs).
  assert (rch p c) as Hpc by (apply (i_path _ _ _ _ I [] (fs, c) (fsp, p) segs); done).
  assert (p ∈ a_S a) as HpS by (rewrite HS, seg_S_cons; set_solver).
  unfold a_pop. rewrite HV. cbn [tl map snd].
  set (lk' := upd (a_lk a) p (Z.min (a_lk a p) (a_lk a c))).
  assert (lk' p = Z.min (a_lk a p) (a_lk a c)) as Hlp by apply upd_eq.
  assert (∀ v, v ≠ p → lk' v = a_lk a v) as Hlne by (intros; by apply upd_ne).
  assert (∀ v, lk' v ≤ a_lk a v) as Hlle.
  { intros v. destruct (decide (v = p)) as [->|]; [lia|]. rewrite Hlne by done. lia. }
  pose proof (i_nd _ _ _ _ I) as Hnd. apply NoDup_app in Hnd as (_ & _ & Hnd).
  rewrite HS, seg_S_cons in Hnd.
  assert (p ≠ c ∧ p ∉ fs ∧ p ∉ fsp ∧ p ∉ seg_S segs) as (Hpc' & Hpfs & Hpfsp & Hpseg).
  { apply NoDup_app in Hnd as (_ & H1 & [H2 H3]%NoDup_cons).
    apply NoDup_app in H3 as (_ & H5 & [H6 H7]%NoDup_cons). split_and!.
    - intros ->. set_solver.
    - intros Hp. apply (H1 p Hp). set_solver.
    - intros Hp. apply (H5 p Hp). set_solver.
    - done. }
  constructor; cbn [a_comps a_V a_S a_st a_lk a_tm a_clk option_list app map snd].
  - done.
  - rewrite HS, !seg_S_cons. by rewrite <-app_assoc.
  - apply I.
  - intros v Hv. apply (i_rng _ _ _ _ I). rewrite HV. set_solver.
  - apply I.
  - apply I.
  - apply I.
  - apply I.
  - done.
  - done.
  - apply I.
  - apply I.
  - apply I.
  - intros fs0 g x Hs Hx. apply elem_of_cons in Hs as [[= -> ->]|Hs].
    + rewrite Hlp. apply elem_of_app in Hx as [Hx|[->|Hx]%elem_of_cons].
      * destruct (i_fs _ _ _ _ I fs c x ltac:(set_solver) Hx) as (H1 & H2 & H3 & H4).
        rewrite Hlne by (intros ->; done). split_and!; [done| |lia|lia]. by etrans.
      * rewrite Hlne by done. split_and!; [done|done|lia|lia].
      * destruct (i_fs _ _ _ _ I fsp p x ltac:(set_solver) Hx) as (H1 & H2 & H3 & H4).
        rewrite Hlne by (intros ->; done). split_and!; [done|done|lia|lia].
    + assert (g ∈ seg_S segs) by (apply seg_S_elem; eauto).
      assert (x ∈ seg_S segs) by (apply seg_S_elem; eauto).
      rewrite !Hlne by (intros ->; done).
      apply (i_fs _ _ _ _ I fs0 g x ltac:(set_solver) Hx).
  - intros v Hv. destruct (i_link _ _ _ _ I v Hv) as (H1 & u' & H2 & H3 & H4).
    specialize (Hlle v) as Hlv. split; [lia|]. destruct (decide (v = p)) as [->|Hvp].
    + rewrite Hlp. destruct (Z.min_spec (a_lk a p) (a_lk a c)) as [[_ ->]|[_ ->]]; [eauto|].
      exists u. split_and!; [done|done|etrans; [exact Hpc|done]].
    + rewrite Hlne by done. eauto.
  - intros l1 s1 s2 l2 Hs. destruct l1 as [|s0 l1]; cbn in Hs.
    + injection Hs as <- ->. cbn. apply (i_path _ _ _ _ I [(fs, c)] (fsp, p) s2 l2). done.
    + injection Hs as <- ->. by apply (i_path _ _ _ _ I ((fs, c) :: (fsp, p) :: l1) s1 s2 l2).
  - intros x w Hx Hw. destruct (i_edges _ _ _ _ I x w Hx Hw) as [H|[[H1 H2]|H]]; [by left| |done].
    right. left. split; [done|]. specialize (Hlle x). lia.
  - apply (i_comps _ _ _ _ I).
  - intros r Hr%(i_root1 _ _ _ _ I). rewrite HV in Hr. set_solver.
  - intros v Hv. apply (i_root2 _ _ _ _ I). rewrite HV. set_solver.
Qed.

(** ** Complete the root of a component *)
Lemma inv_capture a fs c segs R : Inv a ((fs, c) :: segs) None R → a_st a c = 0 → a_lk a c = a_tm a c →
  Inv (a_pop (a_capture a c) c) segs None R.
Proof.
  intros I Hst Hroot.
  assert (c ∈ a_S a) as HcS by (apply (i_act _ _ _ _ I); lia).
  pose proof (i_V _ _ _ _ I) as HV. cbn in HV.
  pose proof (i_S _ _ _ _ I) as HS. rewrite seg_S_cons in HS.
  pose proof (i_sort _ _ _ _ I) as Hsort.
  pose proof (i_nd _ _ _ _ I) as Hnd0. apply NoDup_app in Hnd0 as (HndC & HCS & HndS).
  assert (NoDup (fs ++ c :: seg_S segs)) as HndS' by by rewrite <-HS.
  apply NoDup_app in HndS' as (Hndf & Hfs & [Hc Hndr]%NoDup_cons).
  assert (c ∉ fs) as Hcf by (intros H; apply (Hfs c H); set_solver).
  assert (upto c (a_S a) = (fs ++ [c], seg_S segs)) as Hupto by (rewrite HS; by apply upto_spec).
  set (C := fs ++ [c]) in *.
  assert (∀ x, x ∈ a_S a ↔ x ∈ C ∨ x ∈ seg_S segs) as HSe by (intros x; rewrite HS; set_solver).
  assert (∀ x, x ∈ C → x ∉ seg_S segs) as HCr.
  { intros x Hx. apply elem_of_app in Hx as [Hx| ->%elem_of_list_singleton]; [|done].
    intros H. apply (Hfs x Hx). set_solver. }
  (* vertices below have smaller time *)
  assert (∀ x, x ∈ seg_S segs → a_tm a x < a_tm a c) as Hbelow.
  { intros x Hx. rewrite HS in Hsort. apply sorted_app_r in Hsort. inv Hsort.
    rewrite Forall_forall in H2. by apply H2. }
  assert (∀ x, x ∈ C → a_st a x = 0 ∧ rch c x ∧ a_tm a c ≤ a_lk a x) as HC.
  { intros x Hx. apply elem_of_app in Hx as [Hx| ->%elem_of_list_singleton].
    - destruct (i_fs _ _ _ _ I fs c x ltac:(set_solver) Hx) as (?&?&?&?). split_and!; [done|done|lia].
    - split_and!; [done|done|lia]. }
  assert (∀ x, x ∈ C → rch x c) as HCback.
  { assert (∀ n x, Z.to_nat (a_tm a x) < n → x ∈ C → rch x c)%nat as Hind; [|intros x; by apply (Hind (S (Z.to_nat (a_tm a x)))); lia].
    induction n as [|n IH]; intros x Hn Hx; [lia|].
    apply elem_of_app in Hx as [Hx| ->%elem_of_list_singleton]; [|done].
    destruct (i_fs _ _ _ _ I fs c x ltac:(set_solver) Hx) as (H1&H2&H3&H4).
    assert (x ∈ a_S a) as HxS by (apply HSe; set_solver).
    destruct (i_link _ _ _ _ I x HxS) as (H5 & u & H6 & H7 & H8).
    pose proof (i_clk _ _ _ _ I u H6). pose proof (i_clk _ _ _ _ I x HxS).
    apply HSe in H6 as [H6|H6].
    + etrans; [exact H8|]. apply IH; [lia|done].
    + specialize (Hbelow u H6). lia. }
  assert (∀ u w, u ∈ C → w ∈ E u → w ∈ concat (a_comps a) ++ C) as Hclosed.
  { intros u w Hu Hw. destruct (HC u Hu) as (H1 & H2 & H3).
    assert (u ∈ a_S a) as HuS by (apply HSe; set_solver).
    rewrite elem_of_app.
    destruct (i_edges _ _ _ _ I u w HuS) as [H|[[H H']|H]]; [by rewrite H1| | |done].
    - left. by apply (i_done _ _ _ _ I).
    - right. apply HSe in H as [H|H]; [done|]. specialize (Hbelow w H). lia. }
  assert (∀ v lk0, a_lk (a_pop (a_capture a c) c) v = lk0 ↔ a_lk a v = lk0) as Hlk.
  { intros v lk0. unfold a_pop, a_capture. rewrite HV. cbn [a_V a_lk tl map snd].
    destruct segs as [|[fsp p] segs']; [done|]. cbn [map snd].
    destruct (decide (v = p)) as [->|]; [|by rewrite upd_ne]. rewrite upd_eq.
    assert (p ∈ seg_S ((fsp, p) :: segs')) as Hp by (rewrite seg_S_cons; set_solver).
    pose proof (Hbelow p Hp). destruct (i_link _ _ _ _ I p) as [Hlp _]; [apply HSe; by right|].
    rewrite Z.min_l by lia. done. }
  assert (∀ v, a_lk (a_pop (a_capture a c) c) v = a_lk a v) as Hlk' by (intros v; by apply Hlk).
  assert (∀ v, a_st (a_pop (a_capture a c) c) v = if decide (v ∈ C) then -2 else a_st a v) as Hst'.
  { intros v. cbn. by rewrite Hupto. }
  assert (a_comps (a_pop (a_capture a c) c) = a_comps a ++ [C]) as Hcomps by (cbn; by rewrite Hupto).
  assert (a_S (a_pop (a_capture a c) c) = seg_S segs) as HS' by (cbn; by rewrite Hupto).
  assert (a_V (a_pop (a_capture a c) c) = map snd segs) as HV' by (cbn; by rewrite HV).
  assert (a_tm (a_pop (a_capture a c) c) = a_tm a) as Htm' by done.
  assert (a_clk (a_pop (a_capture a c) c) = a_clk a) as Hclk' by done.
  assert (∀ v, v ∈ concat (a_comps a) ++ seg_S segs ++ C ↔ v ∈ concat (a_comps a) ++ a_S a) as Hsame
    by (intros v; rewrite !elem_of_app, HSe; tauto).
  revert Hlk' Hst' Hcomps HS' HV' Htm' Hclk'. clear Hlk.
  generalize (a_pop (a_capture a c) c). intros a' Hlk' Hst' Hcomps HS' HV' Htm' Hclk'.
  assert (∀ x, x ∈ seg_S segs → a_st a' x = a_st a x) as Hst_r.
  { intros x Hx. rewrite Hst'. rewrite decide_False; [done|]. intros H. by apply (HCr x). }
  assert (concat (a_comps a') = concat (a_comps a) ++ C) as Hcc.
  { rewrite Hcomps, concat_app. cbn. by rewrite app_nil_r. }
  constructor; rewrite ?HS', ?HV', ?Hcc, ?Htm', ?Hclk'.
  - done.
  - done.
  - rewrite <-app_assoc. unfold C. rewrite <-app_assoc. cbn. rewrite <-HS. apply I.
  - intros v Hv. apply (i_rng _ _ _ _ I). rewrite HV. specialize (Hsame v). set_solver.
  - intros v. rewrite Hst', elem_of_app. case_decide as Hd.
    + split; [done|by right].
    + rewrite (i_done _ _ _ _ I). tauto.
  - intros v. rewrite Hst'. case_decide as Hd.
    + split; [|lia]. intros H. by apply HCr in Hd.
    + rewrite <-(i_act _ _ _ _ I), HSe. tauto.
  - intros v. rewrite Hst'. case_decide; [lia|apply I].
  - intros v Hv. rewrite Hst_r by done. apply I, HSe. by right.
  - done.
  - done.
  - rewrite HS in Hsort. apply sorted_app_r in Hsort. by inv Hsort.
  - intros v Hv. apply I, HSe. by right.
  - pose proof (i_cnt _ _ _ _ I) as Hcnt. rewrite HS in Hcnt. unfold C. rewrite !app_length in *. cbn in *. lia.
  - intros fs0 g x Hs Hx. assert (x ∈ seg_S segs) by (apply seg_S_elem; eauto).
    rewrite Hst_r, !Hlk' by done. apply (i_fs _ _ _ _ I fs0 g x ltac:(set_solver) Hx).
  - intros v Hv. rewrite Hlk'. destruct (i_link _ _ _ _ I v) as (H1 & u & H2 & H3 & H4); [apply HSe; by right|].
    split; [done|]. exists u. split_and!; [|done|done].
    apply HSe in H2 as [H2|H2]; [|done]. exfalso.
    assert (a_tm a c ≤ a_tm a u).
    { destruct (HC u H2) as (_ & _ & ?). destruct (i_link _ _ _ _ I u) as [? _]; [apply HSe; by left|]. lia. }
    specialize (Hbelow v Hv). lia.
  - intros l1 s1 s2 l2 ->. by apply (i_path _ _ _ _ I ((fs, c) :: l1) s1 s2 l2).
  - intros x w Hx Hw. rewrite Hst_r in Hw by done. rewrite Hst', Hlk'.
    destruct (i_edges _ _ _ _ I x w) as [H|[[H1 H2]|H]]; [apply HSe; by right|done| | |done].
    + left. by case_decide.
    + case_decide as Hd; [by left|]. right. left. split; [|done]. apply HSe in H1. tauto.
  - intros l1 C' l2 Heq. rewrite Hcomps in Heq.
    destruct l2 as [|x l2' _] using rev_ind.
    + apply app_inj_tail in Heq as [<- <-]. split_and!.
      * unfold C. by destruct fs.
      * intros u v Hu Hv. etrans; [by apply HCback|]. by apply HC.
      * done.
    + rewrite app_comm_cons, app_assoc in Heq. apply app_inj_tail in Heq as [Heq _].
      by apply (i_comps _ _ _ _ I l1 C' l2').
  - intros r Hr%(i_root1 _ _ _ _ I). rewrite HV in Hr. specialize (Hsame r).
    assert (c ∈ C) by (unfold C; set_solver). set_solver.
  - intros v Hv. apply (i_root2 _ _ _ _ I). rewrite HV. specialize (Hsame v). set_solver.
Qed.

Lemma inv_complete a fs c segs R : Inv a ((fs, c) :: segs) None R → a_st a c = 0 →
  ∃ segs', Inv (a_complete a c) segs' None R.
Proof.
  intros I Hst. unfold a_complete. case_decide.
  - exists segs. by eapply inv_capture.
  - by eapply inv_merge.
Qed.

(** ** One iteration *)
Lemma inv_top a segs pend R c V' : Inv a segs pend R → a_V a = c :: V' →
  let a1 := if decide (a_st a c = -1) then a_discover a c else a in
  ∃ fs segs', Inv a1 ((fs, c) :: segs') None R ∧ a_V a1 = c :: V'.
Proof.
  intros I HV. pose proof (i_V _ _ _ _ I) as HV'. rewrite HV in HV'. destruct pend as [w|]; cbn in HV'.
  - injection HV' as <- ->. rewrite decide_True by by apply (i_pend _ _ _ _ I).
    exists [], segs. split; [by apply inv_discover|done].
  - destruct segs as [|[fs g] segs]; [done|]. cbn in HV'. injection HV' as <- ->.
    assert (0 ≤ a_st a c).
    { apply (i_act _ _ _ _ I). rewrite (i_S _ _ _ _ I), seg_S_cons. set_solver. }
    rewrite decide_False by lia. eauto.
Qed.

Lemma inv_iter (HE : in_rows) a segs pend R : Inv a segs pend R → a_V a ≠ [] →
  ∃ segs' pend', Inv (a_iter a) segs' pend' R.
Proof.
  intros I Hne. destruct (a_V a) as [|c V'] eqn:HV; [done|].
  destruct (inv_top _ _ _ _ _ _ I HV) as (fs & segs' & I1 & HV1).
  unfold a_iter. rewrite HV. cbn zeta in *.
  set (a1 := if decide (a_st a c = -1) then a_discover a c else a) in *. clearbody a1.
  case_decide.
  - destruct (inv_complete _ _ _ _ _ I1) as (segs2 & I2); [done|eauto].
  - destruct (inv_descend HE _ _ _ _ _ I1) as (pend2 & I2); [|eauto].
    assert (0 ≤ a_st a1 c); [|lia].
    apply (i_act _ _ _ _ I1). rewrite (i_S _ _ _ _ I1), seg_S_cons. set_solver.
Qed.

(** ** The measure: remaining loop iterations *)
Definition pot (a : am) (v : Z) : Z :=
  if decide (a_st a v = -1) then deg v + 1
  else if decide (v ∈ a_V a) then a_st a v + 1 else 0.
Definition vertices : list Z := seqZ 0 nv.
Definition todo (a : am) : Z := sumZ (pot a) vertices.

Lemma vertices_NoDup : NoDup vertices.
Proof. apply NoDup_seqZ. Qed.
Lemma elem_vertices v : v ∈ vertices ↔ 0 ≤ v < nv.
Proof. unfold vertices. rewrite elem_of_seqZ. lia. Qed.

Lemma inv_NoDup_V a segs pend R : Inv a segs pend R → NoDup (a_V a).
Proof.
  intros I. rewrite (i_V _ _ _ _ I).
  pose proof (i_nd _ _ _ _ I) as Hnd. apply NoDup_app in Hnd as (_ & _ & Hnd).
  rewrite (i_S _ _ _ _ I) in Hnd.
  assert (NoDup (map snd segs)) as H2.
  { clear I. induction segs as [|[fs g] segs IH]; cbn; [constructor|].
    rewrite seg_S_cons in Hnd. apply NoDup_app in Hnd as (_ & _ & [H1 Hnd]%NoDup_cons). constructor; [|auto].
    intros H. by apply H1, seg_snd_elem. }
  destruct pend as [w|]; cbn; [|done]. constructor; [|done].
  intros Hw%seg_snd_elem. rewrite <-(i_S _ _ _ _ I), (i_act _ _ _ _ I), (i_pend _ _ _ _ I w) in Hw by done. lia.
Qed.

Lemma todo_nonneg a segs pend R : Inv a segs pend R → 0 ≤ todo a.
Proof.
  intros I. apply sumZ_nonneg. intros v _. unfold pot, deg. repeat case_decide; try lia.
  rewrite (i_V _ _ _ _ I) in *. pose proof (i_low _ _ _ _ I v).
  assert (a_st a v ≠ -2); [|lia]. intros Hd.
  match goal with H : v ∈ _ ++ _ |- _ => apply elem_of_app in H as [H|H] end.
  - destruct pend as [w|]; cbn in *; [|set_solver].
    match goal with H : v ∈ [w] |- _ => apply elem_of_list_singleton in H as -> end.
    by rewrite (i_pend _ _ _ _ I w) in Hd.
  - match goal with H : v ∈ map _ _ |- _ => apply seg_snd_elem in H;
      rewrite <-(i_S _ _ _ _ I), (i_act _ _ _ _ I) in H end. lia.
Qed.

Lemma todo_iter a segs pend R : Inv a segs pend R → a_V a ≠ [] → todo (a_iter a) = todo a - 1.
Proof.
  intros I Hne. destruct (a_V a) as [|c V'] eqn:HV; [done|].
  destruct (inv_top _ _ _ _ _ _ I HV) as (fs & segs' & I1 & HV1).
  assert (0 ≤ c < nv) as Hc by (apply (i_rng _ _ _ _ I); rewrite HV; clear; set_solver).
  assert (c ∈ vertices) as Hcv by by apply elem_vertices.
  pose proof (inv_NoDup_V _ _ _ _ I) as HndV. rewrite HV in HndV. apply NoDup_cons in HndV as [HcV _].
  unfold a_iter. rewrite HV. cbn zeta in *.
  set (a1 := if decide (a_st a c = -1) then a_discover a c else a) in *.
  assert (todo a = todo a1) as ->.
  { unfold todo. apply sumZ_ext. intros v _. subst a1. case_decide as Hd; [|done].
    unfold pot. cbn [a_st a_V a_discover]. destruct (decide (v = c)) as [->|Hvc].
    - rewrite upd_eq, !(decide_True (P := a_st a c = -1)) by done. rewrite decide_False by (unfold deg; lia).
      rewrite decide_True; [done|]. rewrite HV. set_solver.
    - by rewrite upd_ne. }
  assert (0 ≤ a_st a1 c) as Hge.
  { apply (i_act _ _ _ _ I1). rewrite (i_S _ _ _ _ I1), seg_S_cons. set_solver. }
  assert (pot a1 c = a_st a1 c + 1) as Hpc.
  { unfold pot. rewrite decide_False by lia. rewrite decide_True; [done|]. rewrite HV1. set_solver. }
  assert (∀ d, todo a1 = todo d + 1 → todo d = todo a1 - 1) as Hx by (intros; lia). apply Hx. clear Hx.
  case_decide as Hz.
  - apply (sumZ_upd _ _ _ c); [apply vertices_NoDup|done| |].
    + rewrite Hpc, Hz. unfold a_complete.
      assert (pot (a_pop (if decide (a_lk a1 c = a_tm a1 c) then a_capture a1 c else a1) c) c = 0) as ->; [|done].
      unfold pot. cbn [a_pop a_st a_V].
      assert (tl (a_V (if decide (a_lk a1 c = a_tm a1 c) then a_capture a1 c else a1)) = V') as HV2.
      { case_decide; cbn; by rewrite HV1. }
      rewrite HV2. rewrite decide_False; [by rewrite decide_False|].
      case_decide; cbn; [case_decide; [done|]|]; lia.
    + intros v Hvc. unfold a_complete, pot. cbn [a_pop a_st a_V].
      assert (tl (a_V (if decide (a_lk a1 c = a_tm a1 c) then a_capture a1 c else a1)) = V') as HV2.
      { case_decide; cbn; by rewrite HV1. }
      rewrite HV2, HV1. assert (v ∈ c :: V' ↔ v ∈ V') as Hiff by set_solver.
      rewrite (decide_ext _ _ _ _ Hiff). case_decide as Hroot; [|done].
      cbn [a_capture a_st]. destruct (decide (v ∈ (upto c (a_S a1)).1)) as [Hup|]; [|done].
      (* captured vertices are neither on the path nor undiscovered *)
      assert (v ∈ a_S a1) as HvS by (rewrite <-(upto_app c (a_S a1)); set_solver).
      pose proof (proj1 (i_act _ _ _ _ I1 v) HvS) as Hact. rewrite (decide_False (P := a_st a1 v = -1)) by lia.
      rewrite (decide_False (P := -2 = -1)) by done.
      assert (v ∉ V') as HvV; [|by rewrite !decide_False by done].
      intros Hin. pose proof (i_V _ _ _ _ I1) as HV3. rewrite HV1 in HV3. cbn in HV3. injection HV3 as ->.
      apply seg_snd_elem in Hin.
      pose proof (i_nd _ _ _ _ I1) as Hnd. apply NoDup_app in Hnd as (_ & _ & Hnd).
      pose proof (i_S _ _ _ _ I1) as HS1. rewrite seg_S_cons in HS1. rewrite HS1 in Hnd, Hup.
      apply NoDup_app in Hnd as (_ & Hd1 & [Hd2 Hd3]%NoDup_cons).
      rewrite upto_spec in Hup by (intros H; apply (Hd1 c H); set_solver). cbn in Hup.
      apply elem_of_app in Hup as [Hup| ->%elem_of_list_singleton]; [|done].
      apply (Hd1 v Hup). set_solver.
  - apply (sumZ_upd _ _ _ c); [apply vertices_NoDup|done| |].
    + rewrite Hpc.
      assert (a_st (a_descend a1 c) c = a_st a1 c - 1 ∧ c ∈ a_V (a_descend a1 c)) as [H1 H2].
      { unfold a_descend. cbn zeta. repeat case_decide; cbn [a_st a_V]; rewrite upd_eq, HV1; split; set_solver. }
      unfold pot. rewrite H1, decide_False by lia. rewrite decide_True by done. lia.
    + intros v Hvc. unfold a_descend, pot.
      set (ch := a_child a1 c). set (st' := upd (a_st a1) c (a_st a1 c - 1)).
      assert (st' v = a_st a1 v) as Hv' by by apply upd_ne.
      destruct (decide (st' ch = -1)) as [Hch|Hch]; cbn [a_st a_V].
      * rewrite Hv'. case_decide; [done|]. assert (v ≠ ch) by congruence.
        assert (v ∈ ch :: a_V a1 ↔ v ∈ a_V a1) as Hiff by set_solver.
        by rewrite (decide_ext _ _ _ _ Hiff).
      * destruct (decide (0 ≤ st' ch)); cbn [a_st a_V]; by rewrite Hv'.
Qed.

(** ** Whole runs *)
Lemma inv_loop (HE : in_rows) fuel : ∀ a segs pend R, Inv a segs pend R → todo a ≤ Z.of_nat fuel →
  Inv (a_loop fuel a) [] None R ∧ a_V (a_loop fuel a) = [].
Proof.
  induction fuel as [|f IH]; intros a segs pend R I Hf.
  - destruct (a_V a) as [|c V'] eqn:HV.
    + pose proof (i_V _ _ _ _ I) as HV2. rewrite HV in HV2. destruct pend; [done|]. destruct segs; [|done]. done.
    + exfalso. pose proof (todo_iter _ _ _ _ I ltac:(by rewrite HV)).
      destruct (inv_iter HE _ _ _ _ I ltac:(by rewrite HV)) as (? & ? & I').
      pose proof (todo_nonneg _ _ _ _ I'). lia.
  - cbn. destruct (a_V a) as [|c V'] eqn:HV.
    + pose proof (i_V _ _ _ _ I) as HV2. rewrite HV in HV2. destruct pend; [done|]. destruct segs; [|done]. done.
    + destruct (inv_iter HE _ _ _ _ I ltac:(by rewrite HV)) as (segs' & pend' & I').
      apply (IH _ _ _ _ I'). rewrite (todo_iter _ _ _ _ I) by by rewrite HV. lia.
Qed.

Definition a_init : am := mkAm [] [] [] (λ _, -1) (λ _, 0) (λ _, 0) 0.
Definition a_push (a : am) (r : Z) : am :=
  mkAm (a_comps a) (r :: a_V a) (a_S a) (a_st a) (a_lk a) (a_tm a) 0.

Lemma inv_init : Inv a_init [] None [].
Proof.
  constructor; cbn; try set_solver; try lia; try constructor; try done.
  - set_solver.
  - intros l1 ? ? ? H. by destruct l1.
  - by destruct l1.
  - by destruct l1.
Qed.

Lemma inv_push a r R : Inv a [] None R → a_st a r = -1 → 0 ≤ r < nv → Inv (a_push a r) [] (Some r) (r :: R).
Proof.
  intros I Hr Hrng. pose proof (i_V _ _ _ _ I) as HV. pose proof (i_S _ _ _ _ I) as HS. cbn in HV, HS.
  constructor; cbn [a_comps a_V a_S a_st a_lk a_tm a_clk a_push option_list app map].
  - by rewrite HV.
  - done.
  - apply I.
  - intros v Hv. destruct (decide (v = r)) as [->|]; [done|]. apply (i_rng _ _ _ _ I). set_solver.
  - apply I.
  - apply I.
  - apply I.
  - apply I.
  - by intros w [= <-].
  - done.
  - apply I.
  - rewrite HS. set_solver.
  - lia.
  - set_solver.
  - apply I.
  - intros l1 ? ? ? Hs. by destruct l1.
  - rewrite HS. set_solver.
  - apply (i_comps _ _ _ _ I).
  - intros r' [->|Hr']%elem_of_cons; [set_solver|]. pose proof (i_root1 _ _ _ _ I r' Hr'). set_solver.
  - intros v Hv. destruct (decide (v = r)) as [->|].
    + exists r. split; [set_solver|done].
    + destruct (i_root2 _ _ _ _ I v) as (r' & H1 & H2); [set_solver|]. exists r'. split; [set_solver|done].
Qed.
End abs.
