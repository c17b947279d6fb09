(** Programs with several Toolbox objects. *)
From Verif.Model Require Import Base Num Containers Toolbox ToolboxObjects.
From Verif.Spec Require Import ObjectsSpec.
From Verif.Proofs Require Import Util.
Open Scope Z_scope.

Section objects.
Context {N : Num}.

Lemma tb_run_app (t : toolbox) cs1 cs2 :
  tb_run t (cs1 ++ cs2) = (r ← tb_run t cs1; r' ← tb_run r.1 cs2; Ok (r'.1, r.2 ++ r'.2)).
Proof.
  revert t. induction cs1 as [|c cs1 IH]; intros t; cbn [app tb_run mbind res_bind].
  - cbn [fst snd]. destruct (tb_run t cs2) as [[? ?]|?| | |]; reflexivity.
  - destruct (tb_step t c) as [[t1 o]|?| | |]; cbn; try done. rewrite IH.
    destruct (tb_run t1 cs1) as [[t2 os]|?| | |]; cbn; try done.
    destruct (tb_run t2 cs2) as [[t3 os3]|?| | |]; done.
Qed.

(** Object [x] of the world stands for [y]. *)
Definition stands (w : tbworld) (x : option (option nat)) (y : tbvalue) : Prop :=
  match x, y with
  | None, Gone => True
  | Some None, Emptied => True
  | Some (Some a), Holds g cs => ∃ t os, tw_heap w !! a = Some (Some t) ∧ tb_run (tb_new g) cs = Ok (t, os)
  | _, _ => False
  end.
Record wok (w : tbworld) (s : list tbvalue) : Prop := {
  wo_stands : Forall2 (stands w) (tw_objs w) s;
  wo_single : ∀ o o' a, owns w o a → owns w o' a → o = o';
  wo_owned : ∀ a, allocated w a → ∃ o, owns w o a
}.

Lemma wok0 : wok tbworld0 [].
Proof. split; [constructor|intros o o' a H; done|intros a [t H]; done]. Qed.

Lemma stands_obj w s o x : Forall2 (stands w) (tw_objs w) s → tw_objs w !! o = Some x → ∃ y, s !! o = Some y ∧ stands w x y.
Proof. intros H Hx. destruct (Forall2_lookup_l _ _ _ _ _ H Hx) as (y & ? & ?). eauto. Qed.

(** [tw_ptr] and [living] agree. *)
Lemma ptr_living w s o : wok w s →
  match tw_ptr w o, living s o with
  | Ok p, Ok y => tw_objs w !! o = Some (Some p) ∧ s !! o = Some y ∧ stands w (Some p) y
  | UB, UB => True
  | _, _ => False
  end.
Proof.
  intros [H _ _]. unfold tw_ptr, living. destruct (tw_objs w !! o) as [x|] eqn:E.
  - destruct (stands_obj _ _ _ _ H E) as (y & Ey & Hy). rewrite Ey. destruct x as [p|], y; cbn in Hy; try done; by destruct p.
  - apply lookup_ge_None in E. rewrite (Forall2_length _ _ _ H) in E. apply lookup_ge_None in E. by rewrite E.
Qed.

Lemma stands_frame w w' x y : (∀ a, x = Some (Some a) → tw_heap w' !! a = tw_heap w !! a) → stands w x y → stands w' x y.
Proof.
  intros H. destruct x as [[a|]|], y; try done. intros (t & os & H1 & H2). exists t, os. split; [|done]. by rewrite H.
Qed.
Lemma stands_alloc w a y : stands w (Some (Some a)) y → allocated w a.
Proof. destruct y; try done. intros (t & os & H & _). by exists t. Qed.
Lemma owner_alloc w s o a : wok w s → owns w o a → allocated w a.
Proof. intros [H _ _] Ho. destruct (stands_obj _ _ _ _ H Ho) as (y & _ & Hy). by eapply stands_alloc. Qed.

(** The invariant, object by object. *)
Definition pointwise (w : tbworld) (s : list tbvalue) : Prop :=
  length (tw_objs w) = length s ∧ ∀ o x y, tw_objs w !! o = Some x → s !! o = Some y → stands w x y.
Lemma pointwise_stands w s : pointwise w s ↔ Forall2 (stands w) (tw_objs w) s.
Proof.
  split.
  - intros [H1 H2]. apply Forall2_same_length_lookup. split; [done|]. intros i x y. apply H2.
  - intros H. apply Forall2_same_length_lookup in H as [H1 H2]. split; [done|]. intros i x y. apply H2.
Qed.

(** The same outcome, related by [P] if it is a normal one. *)
Definition both {A B} (P : A → B → Prop) (a : res A) (b : res B) : Prop :=
  match a, b with
  | Ok x, Ok y => P x y
  | Throw e, Throw e' => e = e'
  | UB, UB | AssertFail, AssertFail | NoFuel, NoFuel => True
  | _, _ => False
  end.
Lemma both_bind {A B A' B'} (P : A → B → Prop) (Q : A' → B' → Prop) a b f g :
  both P a b → (∀ x y, P x y → both Q (f x) (g y)) → both Q (a ≫= f) (b ≫= g).
Proof. destruct a, b; cbn; try done. intros H1 H2. by apply H2. Qed.

Lemma step_ok w s op : wok w s →
  both (λ x y, x.2 = y.2 ∧ wok x.1 y.1) (tw_step w op) (value_step s op).
Proof.
  intros HW. pose proof HW as [H1%pointwise_stands H2 H3]. destruct H1 as [Hl H1].
  destruct op as [g|src|dst src|o|o c]; cbn [tw_step value_step].
  - (* construction *)
    split; [done|]. cbn [fst]. split.
    + apply pointwise_stands. split; [cbn; rewrite !app_length; cbn; lia|]. cbn [tw_objs tw_heap]. intros o x y.
      rewrite !lookup_app_Some. intros [Hx|[Hx1 Hx2]] [Hy|[Hy1 Hy2]].
      * eapply stands_frame; [|by eapply H1]. intros a ->. cbn. destruct (owner_alloc w s o a HW Hx) as [t Ht].
        rewrite Ht. by apply lookup_app_l_Some.
      * apply lookup_lt_Some in Hx. lia.
      * apply lookup_lt_Some in Hy. lia.
      * apply list_lookup_singleton_Some in Hx2 as [_ <-]. apply list_lookup_singleton_Some in Hy2 as [_ <-].
        cbn. exists (tb_new g), []. split; [|done]. rewrite lookup_app_r, Nat.sub_diag by lia. done.
    + unfold owns. cbn [tw_objs]. intros o o' a. rewrite !lookup_app_Some. intros [Hx|[Hx1 Hx2]] [Hy|[Hy1 Hy2]].
      * by eapply H2.
      * apply list_lookup_singleton_Some in Hy2 as [_ [= <-]]. destruct (owner_alloc w s o _ HW Hx) as [t Ht]. apply lookup_lt_Some in Ht. lia.
      * apply list_lookup_singleton_Some in Hx2 as [_ [= <-]]. destruct (owner_alloc w s o' _ HW Hy) as [t Ht]. apply lookup_lt_Some in Ht. lia.
      * apply list_lookup_singleton_Some in Hx2 as [E _]. apply list_lookup_singleton_Some in Hy2 as [E' _]. lia.
    + intros a [t Ht]. cbn [tw_heap] in Ht. apply lookup_app_Some in Ht as [Ht|[Ht1 Ht2]].
      * destruct (H3 a (ex_intro _ t Ht)) as [o Ho]. exists o. unfold owns in *. cbn. by apply lookup_app_l_Some.
      * apply list_lookup_singleton_Some in Ht2 as [Ht2 _]. exists (length (tw_objs w)). unfold owns. cbn.
        rewrite lookup_app_r, Nat.sub_diag by lia. cbn. do 3 f_equal. lia.
  - (* move construction *)
    unfold tw_release. pose proof (ptr_living w s src HW) as HP. destruct (tw_ptr w src) as [p|?| | |], (living s src) as [y0|?| | |]; try done.
    destruct HP as (E1 & E2 & E3). cbn [mbind res_bind]. split; [done|]. cbn [fst snd tw_set tw_heap tw_objs].
    pose proof (lookup_lt_Some _ _ _ E1) as L1. split.
    + apply pointwise_stands. split; [cbn; rewrite !app_length, !insert_length; cbn; lia|]. cbn [tw_objs tw_heap]. intros o x y.
      rewrite !lookup_app_Some, !insert_length. intros [Hx|[Hx1 Hx2]] [Hy|[Hy1 Hy2]].
      * destruct (decide (o = src)) as [->|Hne].
        -- rewrite list_lookup_insert in Hx by done. rewrite list_lookup_insert in Hy by lia. injection Hx as <-. injection Hy as <-. done.
        -- rewrite list_lookup_insert_ne in Hx by done. rewrite list_lookup_insert_ne in Hy by done. by eapply (stands_frame w); [|by eapply H1].
      * apply lookup_lt_Some in Hx. rewrite insert_length in Hx. lia.
      * apply lookup_lt_Some in Hy. rewrite insert_length in Hy. lia.
      * apply list_lookup_singleton_Some in Hx2 as [_ <-]. apply list_lookup_singleton_Some in Hy2 as [_ <-]. by eapply (stands_frame w).
    + unfold owns. cbn [tw_objs]. intros o o' a. rewrite !lookup_app_Some, !insert_length.
      assert (∀ i, <[src:=Some None]> (tw_objs w) !! i = Some (Some (Some a)) → i ≠ src ∧ owns w i a) as Hi.
      { intros i Hi. destruct (decide (i = src)) as [->|Hne]; [by rewrite list_lookup_insert in Hi|]. by rewrite list_lookup_insert_ne in Hi. }
      intros [Hx|[Hx1 Hx2]] [Hy|[Hy1 Hy2]].
      * apply Hi in Hx as [_ Hx]. apply Hi in Hy as [_ Hy]. by eapply H2.
      * apply Hi in Hx as [Hne Hx]. apply list_lookup_singleton_Some in Hy2 as [_ [= ->]]. exfalso. apply Hne. by eapply H2.
      * apply Hi in Hy as [Hne Hy]. apply list_lookup_singleton_Some in Hx2 as [_ [= ->]]. exfalso. apply Hne. by eapply H2.
      * apply list_lookup_singleton_Some in Hx2 as [E _]. apply list_lookup_singleton_Some in Hy2 as [E' _]. lia.
    + intros a Ha. destruct (H3 a Ha) as [o Ho]. unfold owns in *. cbn. destruct (decide (o = src)) as [->|Hne].
      * exists (length (tw_objs w)). rewrite lookup_app_r, insert_length, Nat.sub_diag by (rewrite insert_length; lia). cbn. congruence.
      * exists o. apply lookup_app_l_Some. by rewrite list_lookup_insert_ne.
  - (* move assignment *)
    unfold tw_release. pose proof (ptr_living w s src HW) as HP. destruct (tw_ptr w src) as [p|?| | |] eqn:EP, (living s src) as [y0|?| | |] eqn:EL; try done.
    destruct HP as (E1 & E2 & E3). cbn [mbind res_bind fst snd]. pose proof (lookup_lt_Some _ _ _ E1) as L1.
    destruct (decide (dst = src)) as [->|Hne].
    + (* onto itself *)
      rewrite EL. cbn [mbind res_bind]. unfold tw_reset, tw_ptr. cbn [tw_set tw_objs].
      rewrite list_lookup_insert by done. cbn [mbind res_bind tw_delete fst snd].
      unfold tw_set. cbn [both tw_heap tw_objs fst snd]. rewrite !list_insert_insert. rewrite (list_insert_id _ _ _ E1), (list_insert_id _ _ _ E2). split; [done|]. by destruct w.
    + unfold tw_reset. assert (tw_ptr (tw_set w src None) dst = tw_ptr w dst) as ->.
      { unfold tw_ptr. cbn. by rewrite list_lookup_insert_ne by done. }
      pose proof (ptr_living w s dst HW) as HQ. destruct (tw_ptr w dst) as [q|?| | |] eqn:EQ, (living s dst) as [y1|?| | |] eqn:EM; try done.
      destruct HQ as (F1 & F2 & F3). cbn [mbind res_bind]. pose proof (lookup_lt_Some _ _ _ F1) as L2.
      set (objs' := <[dst:=Some p]> (<[src:=Some None]> (tw_objs w))). set (s' := <[dst:=y0]> (<[src:=Emptied]> s)).
      assert (length objs' = length s') as Hl' by (unfold objs', s'; rewrite !insert_length; lia).
      assert (∀ i x y, objs' !! i = Some x → s' !! i = Some y →
        (i = dst ∧ x = Some p ∧ y = y0) ∨ (i = src ∧ x = Some None ∧ y = Emptied) ∨ (i ≠ dst ∧ i ≠ src ∧ tw_objs w !! i = Some x ∧ s !! i = Some y)) as Hi.
      { intros i x y Hx Hy. unfold objs' in Hx. unfold s' in Hy. destruct (decide (i = dst)) as [->|Hd].
        - rewrite list_lookup_insert in Hx by (rewrite insert_length; lia). rewrite list_lookup_insert in Hy by (rewrite insert_length; lia). left. split; [done|]. split; congruence.
        - rewrite list_lookup_insert_ne in Hx by done. rewrite list_lookup_insert_ne in Hy by done. right. destruct (decide (i = src)) as [->|Hd'].
          + rewrite list_lookup_insert in Hx by lia. rewrite list_lookup_insert in Hy by lia. left. split; [done|]. split; congruence.
          + rewrite list_lookup_insert_ne in Hx by done. rewrite list_lookup_insert_ne in Hy by done. by right. }
      assert (∀ i a, objs' !! i = Some (Some (Some a)) → (i = dst ∧ p = Some a) ∨ (i ≠ dst ∧ i ≠ src ∧ owns w i a)) as Ho.
      { intros i a Hx. pose proof (lookup_lt_Some _ _ _ Hx) as Hlt. rewrite Hl' in Hlt. apply lookup_lt_is_Some in Hlt as [y Hy].
        destruct (Hi i _ y Hx Hy) as [(-> & [= E] & _)|[(_ & E & _)|(A & B & C & _)]]; [by left|done|by right]. }
      (* the heap afterwards *)
      assert (∃ heap', tw_delete (tw_set (tw_set w src None) dst p) q = Ok (mkTw heap' objs') ∧
        (∀ a, q ≠ Some a → heap' !! a = tw_heap w !! a) ∧ (∀ a, q = Some a → heap' !! a = Some None)) as (heap' & -> & K1 & K2).
      { destruct q as [a|]; cbn [tw_delete tw_set tw_heap tw_objs]; [|by exists (tw_heap w)].
        destruct (owner_alloc w s dst a HW F1) as [t Ht]. rewrite Ht. exists (<[a:=None]> (tw_heap w)). split; [done|].
        split; [intros b Hb; apply list_lookup_insert_ne; congruence|]. intros b [= <-]. apply list_lookup_insert. by eapply lookup_lt_Some. }
      cbn [mbind res_bind]. split; [done|]. cbn [fst]. split.
      * apply pointwise_stands. split; [done|]. cbn [tw_objs]. intros i x y Hx Hy. destruct (Hi i x y Hx Hy) as [(-> & -> & ->)|[(-> & -> & ->)|(A & B & C & D)]]; [|done|].
        -- eapply (stands_frame w); [|exact E3]. intros a [= ->]. cbn. apply K1. intros ->. apply Hne. by eapply H2.
        -- eapply (stands_frame w); [|by eapply H1]. intros a ->. cbn. apply K1. intros ->. apply A. by eapply H2.
      * unfold owns. cbn [tw_objs]. intros i j a Hx%Ho Hy%Ho. destruct Hx as [[-> ->]|(A & B & C)], Hy as [[-> ?]|(A' & B' & C')]; [done| | |by eapply H2].
        -- exfalso. apply B'. by eapply H2.
        -- exfalso. apply B. subst p. by eapply H2.
      * intros a [t Ht]. cbn [tw_heap] in Ht. assert (q ≠ Some a) as Hq. { intros Hq. rewrite (K2 a Hq) in Ht. done. }
        rewrite (K1 a Hq) in Ht. destruct (H3 a (ex_intro _ t Ht)) as [o Hoo]. unfold owns in *. cbn.
        destruct (decide (o = src)) as [->|Hs].
        -- exists dst. unfold objs'. rewrite list_lookup_insert by (rewrite insert_length; lia). congruence.
        -- exists o. unfold objs'. rewrite list_lookup_insert_ne by (intros ->; congruence). by rewrite list_lookup_insert_ne.
  - (* destruction *)
    pose proof (ptr_living w s o HW) as HP. destruct (tw_ptr w o) as [p|?| | |] eqn:EP, (living s o) as [y0|?| | |] eqn:EL; try done.
    destruct HP as (E1 & E2 & E3). cbn [mbind res_bind]. pose proof (lookup_lt_Some _ _ _ E1) as L1.
    assert (∃ heap', tw_delete w p = Ok (mkTw heap' (tw_objs w)) ∧
      (∀ a, p ≠ Some a → heap' !! a = tw_heap w !! a) ∧ (∀ a, p = Some a → heap' !! a = Some None)) as (heap' & -> & K1 & K2).
    { destruct p as [a|]; cbn [tw_delete]; [|exists (tw_heap w); by destruct w].
      destruct (owner_alloc w s o a HW E1) as [t Ht]. rewrite Ht. exists (<[a:=None]> (tw_heap w)). split; [done|].
      split; [intros b Hb; apply list_lookup_insert_ne; congruence|]. intros b [= <-]. apply list_lookup_insert. by eapply lookup_lt_Some. }
    cbn [mbind res_bind tw_heap tw_objs]. split; [done|]. cbn [fst].
    assert (∀ i a, <[o:=None]> (tw_objs w) !! i = Some (Some (Some a)) → i ≠ o ∧ owns w i a) as Ho.
    { intros i a Hx. destruct (decide (i = o)) as [->|Hd]; [by rewrite list_lookup_insert in Hx|]. by rewrite list_lookup_insert_ne in Hx. }
    split.
    + apply pointwise_stands. split; [cbn; rewrite !insert_length; lia|]. cbn [tw_objs]. intros i x y Hx Hy. destruct (decide (i = o)) as [->|Hd].
      * rewrite list_lookup_insert in Hx by done. rewrite list_lookup_insert in Hy by lia. injection Hx as <-. injection Hy as <-. done.
      * rewrite list_lookup_insert_ne in Hx by done. rewrite list_lookup_insert_ne in Hy by done.
        eapply (stands_frame w); [|by eapply H1]. intros a ->. cbn. apply K1. intros ->. apply Hd. by eapply H2.
    + unfold owns. cbn [tw_objs]. intros i j a Hx%Ho Hy%Ho. eapply H2; [apply Hx|apply Hy].
    + intros a [t Ht]. cbn [tw_heap] in Ht. assert (p ≠ Some a) as Hq. { intros Hq. rewrite (K2 a Hq) in Ht. done. }
      rewrite (K1 a Hq) in Ht. destruct (H3 a (ex_intro _ t Ht)) as [i Hoo]. exists i. unfold owns in *. cbn.
      rewrite list_lookup_insert_ne by (intros ->; congruence). done.
  - (* a call *)
    unfold tw_ptr. destruct (tw_objs w !! o) as [x|] eqn:E1.
    + destruct (stands_obj w s o x (wo_stands _ _ HW) E1) as (y & E2 & E3). rewrite E2. destruct x as [[a|]|]; cbn [mbind res_bind]; [|by destruct y..].
      destruct y as [| |g cs]; try done. destruct E3 as (t & os & Ht & Hr). rewrite Ht. unfold returns. rewrite Hr.
      cbn [mbind res_bind fst snd tb_run]. destruct (tb_step t c) as [[t' x]|?| | |] eqn:Ec; cbn [mbind res_bind both fst snd]; try done.
      split; [done|]. split.
      * apply pointwise_stands. split; [cbn; rewrite insert_length; lia|]. cbn [tw_objs]. intros i x0 y Hx Hy. destruct (decide (i = o)) as [->|Hd].
        -- rewrite list_lookup_insert in Hy by (by eapply lookup_lt_Some). injection Hy as <-. rewrite E1 in Hx. injection Hx as <-. cbn.
           exists t', (os ++ [x]). split; [apply list_lookup_insert; by eapply lookup_lt_Some|]. rewrite tb_run_app, Hr. cbn. rewrite Ec. done.
        -- rewrite list_lookup_insert_ne in Hy by done. eapply (stands_frame w); [|by eapply H1]. intros b ->. cbn. apply list_lookup_insert_ne.
           intros ->. apply Hd. by eapply H2.
      * exact H2.
      * intros b [t0 Ht0]. cbn [tw_heap] in Ht0. destruct (decide (b = a)) as [->|Hb]; [by exists o|].
        rewrite list_lookup_insert_ne in Ht0 by done. exact (H3 b (ex_intro _ t0 Ht0)).
    + pose proof E1 as E1'. apply lookup_ge_None in E1'. rewrite Hl in E1'. apply lookup_ge_None in E1'. by rewrite E1'.
Qed.

Lemma run_ok ops w s : wok w s → both (λ x y, x.2 = y.2 ∧ wok x.1 y.1) (tw_run w ops) (value_run s ops).
Proof.
  revert w s. induction ops as [|op ops IH]; intros w s HW; cbn [tw_run value_run]; [done|].
  eapply both_bind; [by apply step_ok|]. intros x y [Hxy HW']. eapply both_bind; [by apply IH|].
  intros x' y' [Hxy' HW'']. cbn. by rewrite Hxy, Hxy'.
Qed.
End objects.
