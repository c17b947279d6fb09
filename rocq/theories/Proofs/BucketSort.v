(** The bucket insertion of AssembledConnections::CSR (accumulateRowEntries +
    createGraph) is a stable sort by key. *)
From Verif.Model Require Import AssembledConnections.
From Verif.Proofs Require Import Util.

(** Number of keys equal to / below [r]. *)
Definition cntK (K : list Z) (r : Z) : nat := length (filter (λ x, x = r) K).
Definition startK (K : list Z) (r : Z) : nat := length (filter (λ x, x < r) K).

Lemma startK_S K r : startK K (r + 1) = (startK K r + cntK K r)%nat.
Proof.
  unfold startK, cntK. induction K as [|x K IH]; [done|].
  rewrite !filter_cons. repeat case_decide; cbn; lia.
Qed.
Lemma startK_0 K : Forall (λ x, 0 ≤ x) K → startK K 0 = O.
Proof.
  unfold startK. induction 1 as [|x K Hx _ IH]; [done|].
  rewrite filter_cons. case_decide; [lia|done].
Qed.
Lemma startK_all K R : Forall (λ x, x < R) K → startK K R = length K.
Proof.
  unfold startK. induction 1 as [|x K Hx _ IH]; [done|].
  rewrite filter_cons. case_decide; [cbn; lia|done].
Qed.
Lemma startK_mono K r r' : r ≤ r' → (startK K r ≤ startK K r')%nat.
Proof.
  intros Hr. unfold startK. induction K as [|x K IH]; [done|].
  rewrite !filter_cons. repeat case_decide; cbn; lia.
Qed.
Lemma startK_seg K r r' : r < r' → (startK K r + cntK K r ≤ startK K r')%nat.
Proof. intros. rewrite <-startK_S. apply startK_mono. lia. Qed.
Lemma cntK_app K1 K2 r : cntK (K1 ++ K2) r = (cntK K1 r + cntK K2 r)%nat.
Proof. unfold cntK. by rewrite filter_app, app_length. Qed.
Lemma cntK_snoc K x r :
  cntK (K ++ [x]) r = (cntK K r + if decide (x = r) then 1 else 0)%nat.
Proof.
  rewrite cntK_app. f_equal. unfold cntK. rewrite filter_cons. by case_decide.
Qed.

(** Each position below the total lies in exactly one segment. *)
Lemma startK_find K R k : 0 ≤ R → Forall (λ x, 0 ≤ x < R) K → (k < length K)%nat →
  ∃ r i, 0 ≤ r < R ∧ k = (startK K r + i)%nat ∧ (i < cntK K r)%nat.
Proof.
  intros HR HK Hk.
  assert (∀ n : nat, (k < startK K (Z.of_nat n))%nat →
    ∃ r i, 0 ≤ r < Z.of_nat n ∧ k = (startK K r + i)%nat ∧ (i < cntK K r)%nat) as H.
  { induction n as [|n IH]; intros Hn.
    - rewrite startK_0 in Hn; [lia|]. eapply Forall_impl; [done|]. cbn. lia.
    - replace (Z.of_nat (S n)) with (Z.of_nat n + 1) in * by lia.
      rewrite startK_S in Hn.
      destruct (decide (k < startK K (Z.of_nat n))%nat) as [Hlt|Hge].
      + destruct (IH Hlt) as (r & i & ? & ? & ?). exists r, i. repeat split; try done; lia.
      + exists (Z.of_nat n), (k - startK K (Z.of_nat n))%nat. repeat split; lia. }
  destruct (H (Z.to_nat R)) as (r & i & ? & ? & ?).
  - rewrite Z2Nat.id by done. rewrite startK_all; [done|].
    eapply Forall_impl; [done|]. cbn. lia.
  - exists r, i. repeat split; try done; lia.
Qed.

Lemma StronglySorted_weaken {A} (R1 R2 : relation A) L :
  (∀ x y, x ∈ L → y ∈ L → R1 x y → R2 x y) → StronglySorted R1 L → StronglySorted R2 L.
Proof.
  intros HR. induction 1 as [|x L HL IH Hx]; [constructor|]. constructor.
  - apply IH. intros. apply HR; set_solver.
  - apply Forall_forall. intros y Hy. rewrite Forall_forall in Hx. apply HR; set_solver.
Qed.

Lemma StronglySorted_app_2 {A} (Rel : relation A) L1 L2 :
  StronglySorted Rel L1 → StronglySorted Rel L2 → (∀ x y, x ∈ L1 → y ∈ L2 → Rel x y) →
  StronglySorted Rel (L1 ++ L2).
Proof.
  intros H1 H2 H. induction H1 as [|x L1 HL IH Hx]; [done|]. cbn. constructor.
  - apply IH. set_solver.
  - apply Forall_app. split; [done|]. apply Forall_forall. set_solver.
Qed.

Section bsort.
  Context {A : Type} (f : A → Z).

  Definition bucket (L : list A) (r : Z) : list A := filter (λ x, f x = r) L.
  Definition bsort (R : Z) (L : list A) : list A := seqZ 0 R ≫= bucket L.

  Lemma bucket_len L r : length (bucket L r) = cntK (map f L) r.
  Proof.
    unfold bucket, cntK. induction L as [|x L IH]; [done|].
    cbn [map]. rewrite !filter_cons. repeat case_decide; cbn; lia.
  Qed.

  Lemma bsort_len L r : 0 ≤ r → Forall (λ x, 0 ≤ f x) L → length (bsort r L) = startK (map f L) r.
  Proof.
    intros Hr HL. unfold bsort. rewrite <-(Z2Nat.id r Hr).
    induction (Z.to_nat r) as [|n IH].
    - rewrite seqZ_nil by lia. cbn. rewrite startK_0; [done|]. by rewrite Forall_map.
    - replace (Z.of_nat (S n)) with (Z.of_nat n + 1) by lia.
      rewrite seqZ_S, bind_app, app_length, IH, startK_S by lia. f_equal.
      rewrite Z.add_0_l. cbn. rewrite app_nil_r. apply bucket_len.
  Qed.

  Lemma bsort_split R L r : 0 ≤ r < R →
    bsort R L = bsort r L ++ bucket L r ++ (seqZ (r + 1) (R - r - 1) ≫= bucket L).
  Proof.
    intros. unfold bsort.
    replace R with (r + (1 + (R - r - 1))) at 1 by lia.
    rewrite seqZ_app, bind_app by lia. f_equal. rewrite seqZ_cons by lia. cbn. f_equal.
    f_equal. f_equal; lia.
  Qed.

  Lemma bsort_lookup R L r i : 0 ≤ r < R → Forall (λ x, 0 ≤ f x) L →
    (i < cntK (map f L) r)%nat →
    bsort R L !! (startK (map f L) r + i)%nat = bucket L r !! i.
  Proof.
    intros Hr HL Hi. rewrite (bsort_split R L r) by done.
    rewrite <-bsort_len by (done || lia).
    rewrite lookup_app_r by lia. rewrite lookup_app_l by (rewrite bucket_len; lia).
    f_equal. lia.
  Qed.

  Lemma bsort_elem R L x : Forall (λ x, 0 ≤ f x < R) L → x ∈ bsort R L ↔ x ∈ L.
  Proof.
    intros HL. unfold bsort, bucket. rewrite elem_of_list_bind. split.
    - intros (r & Hx & _). by apply elem_of_list_filter in Hx as [_ ?].
    - intros Hx. exists (f x). rewrite elem_of_list_filter, elem_of_seqZ.
      rewrite Forall_forall in HL. specialize (HL x Hx). split; [done|lia].
  Qed.

  Lemma bsort_full_len R L : 0 ≤ R → Forall (λ x, 0 ≤ f x < R) L → length (bsort R L) = length L.
  Proof.
    intros HR HL. rewrite bsort_len; [|done|].
    - rewrite startK_all, map_length; [done|]. rewrite Forall_map.
      eapply Forall_impl; [done|]. cbn. lia.
    - eapply Forall_impl; [done|]. cbn. lia.
  Qed.

  Lemma bucket_sorted (Rel : relation A) L r : StronglySorted Rel L → StronglySorted Rel (bucket L r).
  Proof.
    unfold bucket. induction 1 as [|x L HL IH Hx]; [constructor|].
    rewrite filter_cons. case_decide; [|done]. constructor; [done|].
    apply Forall_forall. intros y Hy. apply elem_of_list_filter in Hy as [_ Hy].
    by rewrite Forall_forall in Hx; apply Hx.
  Qed.

  (** The order produced: by key, ties in the original order. *)
  Definition keyed (Rel : relation A) : relation A :=
    λ x y, f x < f y ∨ (f x = f y ∧ Rel x y).

  Lemma bsort_sorted (Rel : relation A) R L : StronglySorted Rel L →
    StronglySorted (keyed Rel) (bsort R L).
  Proof.
    intros HL. unfold bsort.
    assert (∀ n lo : nat, StronglySorted (keyed Rel) (seqZ (Z.of_nat lo) (Z.of_nat n) ≫= bucket L)) as H.
    { induction n as [|n IH]; intros lo.
      - rewrite seqZ_nil by lia. constructor.
      - rewrite seqZ_cons by lia. cbn [mbind list_bind].
        apply StronglySorted_app_2.
        + eapply StronglySorted_weaken; [|by apply bucket_sorted].
          intros x y [Hx _]%elem_of_list_filter [Hy _]%elem_of_list_filter ?.
          right. split; [congruence|done].
        + specialize (IH (S lo)).
          replace (Z.succ (Z.of_nat lo)) with (Z.of_nat (S lo)) by lia.
          by replace (Z.pred (Z.of_nat (S n))) with (Z.of_nat n) by lia.
        + intros x y [Hx _]%elem_of_list_filter (r & [Hy _]%elem_of_list_filter & Hr)%elem_of_list_bind.
          apply elem_of_seqZ in Hr. left. lia. }
    destruct (decide (0 ≤ R)).
    - specialize (H (Z.to_nat R) O). by rewrite Z2Nat.id in H.
    - rewrite seqZ_nil by lia. constructor.
  Qed.
End bsort.

(** ** accumulateRowEntries *)
Section acc.
Context {N : Num}.

Lemma vec_idx1_small r : 0 ≤ r < 2 ^ 63 → vec_idx1 r = r + 1.
Proof. intros. unfold vec_idx1. rewrite (to_size_small r) by lia. apply to_size_small. lia. Qed.

Lemma count_rows_spec R K : 0 ≤ R < 2 ^ 62 → Forall (λ x, 0 ≤ x < R) K →
  ∃ a, count_rows (replicate (Z.to_nat R + 1) 0) K = Ok a ∧ length a = (Z.to_nat R + 1)%nat ∧
       a !! O = Some 0 ∧
       ∀ r, 0 ≤ r < R → a !! Z.to_nat (r + 1) = Some (Z.of_nat (cntK K r)).
Proof.
  intros HR HK. unfold count_rows.
  apply (foldM_inv _ (λ K' a, length a = (Z.to_nat R + 1)%nat ∧ a !! O = Some 0 ∧
       ∀ r, 0 ≤ r < R → a !! Z.to_nat (r + 1) = Some (Z.of_nat (cntK K' r)))).
  - rewrite replicate_length. split_and!; [done| |].
    + apply lookup_replicate. split; [done|lia].
    + intros r Hr. apply lookup_replicate. split; [done|lia].
  - intros K1 row K2 a -> (Hlen & H0 & Ha).
    assert (0 ≤ row < R) as Hrow. { rewrite Forall_forall in HK. apply HK. set_solver. }
    rewrite vec_idx1_small by lia.
    erewrite zget_of by (lia || by apply Ha). cbn.
    rewrite zset_of by (unfold zlen; lia). eexists. split; [done|].
    rewrite insert_length. split_and!; [done| |].
    + rewrite list_lookup_insert_ne by lia. done.
    + intros r Hr. rewrite cntK_snoc. case_decide as Hd.
      * subst. rewrite list_lookup_insert by lia. f_equal. lia.
      * rewrite list_lookup_insert_ne by lia. rewrite Ha by done. f_equal. lia.
Qed.

Lemma running_sum_spec R K a : 0 ≤ R → Forall (λ x, 0 ≤ x < R) K →
  length a = (Z.to_nat R + 1)%nat → a !! O = Some 0 →
  (∀ r, 0 ≤ r < R → a !! Z.to_nat (r + 1) = Some (Z.of_nat (cntK K r))) →
  ∃ a', running_sum R a = Ok a' ∧ length a' = (Z.to_nat R + 1)%nat ∧
        a' !! O = Some (Z.of_nat (startK K R)) ∧
        ∀ r, 0 ≤ r < R → a' !! Z.to_nat (r + 1) = Some (Z.of_nat (startK K r)).
Proof.
  intros HR HK Hlen H0 Ha. unfold running_sum. rewrite forZ_shift.
  replace (R + 1 - 1) with R by lia.
  destruct (forZ_ind_Z R (λ s i, (λ a i, s ← zget a 0; x ← zget a i;
      a' ← zset a 0 (s + x); zset a' i (s + x - x)) s (1 + i))
    (λ i a', length a' = (Z.to_nat R + 1)%nat ∧ a' !! O = Some (Z.of_nat (startK K i)) ∧
      (∀ r, 0 ≤ r < i → a' !! Z.to_nat (r + 1) = Some (Z.of_nat (startK K r))) ∧
      (∀ r, i ≤ r < R → a' !! Z.to_nat (r + 1) = Some (Z.of_nat (cntK K r)))) a)
    as (a' & -> & Hlen' & H0' & Ha' & _).
  - done.
  - split_and!; [done| |lia|].
    + rewrite startK_0; [done|]. eapply Forall_impl; [done|]. cbn. lia.
    + intros r Hr. apply Ha. lia.
  - intros i b Hi (Hlb & Hb0 & Hlo & Hhi).
    rewrite (zget_of b 0 _ ltac:(lia) Hb0). cbn.
    pose proof (Hhi i ltac:(lia)) as Hbi. rewrite Z.add_comm in Hbi.
    rewrite (zget_of b (1 + i) _ ltac:(lia) Hbi). cbn.
    rewrite zset_of by (unfold zlen; lia). cbn.
    rewrite zset_of by (unfold zlen; rewrite insert_length; lia).
    eexists. split; [done|]. rewrite !insert_length. split_and!.
    + done.
    + rewrite list_lookup_insert_ne by lia.
      rewrite list_lookup_insert by lia. rewrite startK_S. f_equal. lia.
    + intros r Hr. destruct (decide (r = i)) as [->|].
      * replace (Z.to_nat (i + 1)) with (Z.to_nat (1 + i)) by lia.
        rewrite list_lookup_insert by (rewrite insert_length; lia). f_equal. lia.
      * rewrite !list_lookup_insert_ne by lia. apply Hlo. lia.
    + intros r Hr. rewrite !list_lookup_insert_ne by lia. apply Hhi. lia.
  - eauto.
Qed.

Lemma accumulate_row_entries_spec R K : 0 ≤ R < 2 ^ 62 → Forall (λ x, 0 ≤ x < R) K →
  ∃ a, accumulate_row_entries R K = Ok a ∧ length a = (Z.to_nat R + 1)%nat ∧
       a !! O = Some (zlen K) ∧
       ∀ r, 0 ≤ r < R → a !! Z.to_nat (r + 1) = Some (Z.of_nat (startK K r)).
Proof.
  intros HR HK. unfold accumulate_row_entries.
  destruct (Z.leb_spec 0 R); [|lia]. cbn [assert_ mbind res_bind].
  destruct (count_rows_spec R K HR HK) as (a & -> & Hl & H0 & Ha). cbn [mbind res_bind].
  destruct (running_sum_spec R K a) as (a' & -> & Hl' & H0' & Ha'); try done; try lia.
  exists a'. split_and!; try done. rewrite H0'. f_equal. unfold zlen.
  rewrite startK_all; [done|]. eapply Forall_impl; [done|]. cbn. lia.
Qed.
(** ** createGraph *)
Lemma bucket_snoc {A} (f : A → Z) P x r :
  bucket f (P ++ [x]) r = if decide (f x = r) then bucket f P r ++ [x] else bucket f P r.
Proof.
  unfold bucket. rewrite filter_app, filter_cons, filter_nil.
  case_decide; [done|apply app_nil_r].
Qed.

Lemma bucket_prefix {A} (f : A → Z) n L r i x :
  bucket f (take n L) r !! i = Some x → bucket f L r !! i = Some x.
Proof.
  intros H. rewrite <-(take_drop n L). unfold bucket in *. rewrite filter_app.
  by apply lookup_app_l_Some.
Qed.

Lemma bucket_lt {A} (f : A → Z) L n x : L !! n = Some x →
  bucket f L (f x) !! length (bucket f (take n L) (f x)) = Some x.
Proof.
  intros H. replace (bucket f L (f x)) with (bucket f (take n L ++ x :: drop (S n) L) (f x))
    by (by rewrite take_drop_middle). unfold bucket.
  rewrite filter_app, lookup_app_r, Nat.sub_diag by done.
  rewrite filter_cons. by case_decide.
Qed.

Lemma resize_len {A} n (d : A) l : length (resize_ n d l) = n.
Proof. unfold resize_. rewrite app_length, take_length, replicate_length. lia. Qed.

Lemma create_graph_spec {A} (f g : A → Z) (L : list A) R a j :
  0 ≤ R < 2 ^ 62 → Forall (λ x, 0 ≤ f x < R) L →
  length a = (Z.to_nat R + 1)%nat → a !! O = Some (zlen L) →
  (∀ r, 0 ≤ r < R → a !! Z.to_nat (r + 1) = Some (Z.of_nat (startK (map f L) r))) →
  ∃ a' e, create_graph a j (map f L) (map g L) = Ok (a', map g (bsort f R L), e) ∧
    length a' = (Z.to_nat R + 1)%nat ∧
    (∀ r, 0 ≤ r ≤ R → a' !! Z.to_nat r = Some (Z.of_nat (startK (map f L) r))) ∧
    length e = length L ∧
    (∀ i x, L !! i = Some x → ∃ k : nat, e !! i = Some (Z.of_nat k) ∧ bsort f R L !! k = Some x).
Proof.
  intros HR HL Hlen H0 Ha. unfold create_graph.
  rewrite (zget_of a 0 _ ltac:(lia) H0). cbn [mbind res_bind].
  replace (zlen (map f L)) with (zlen L) by (unfold zlen; by rewrite map_length).
  rewrite Z.eqb_refl. cbn [assert_ mbind res_bind]. rewrite map_length.
  set (K := map f L) in *.
  assert (HK : Forall (λ x, 0 ≤ x < R) K) by (unfold K; by rewrite Forall_map).
  assert (HL0 : Forall (λ x, 0 ≤ f x) L) by (eapply Forall_impl; [done|]; cbn; lia).
  set (inv := λ (n : nat) (st : list Z * list Z * list Z),
    let '(a, j, e) := st in
    length a = (Z.to_nat R + 1)%nat ∧ length j = length L ∧ length e = n ∧
    (∀ r, 0 ≤ r < R → a !! Z.to_nat (r + 1) =
       Some (Z.of_nat (startK K r + cntK (map f (take n L)) r))) ∧
    (∀ r i x, 0 ≤ r < R → bucket f (take n L) r !! i = Some x →
       j !! (startK K r + i)%nat = Some (g x)) ∧
    (∀ i x, take n L !! i = Some x → ∃ i', e !! i = Some (Z.of_nat (startK K (f x) + i')) ∧
       bucket f L (f x) !! i' = Some x)).
  unfold zlen.
  destruct (forZ_ind (length L) (create_graph_step (map g L) K) inv
             (a, resize_ (length L) 0 j, [])) as ([[a1 j1] e1] & -> & Hinv).
  { cbn. split_and!; try done.
    - apply resize_len.
    - intros r Hr. rewrite Ha by done. f_equal. rewrite take_0. unfold cntK. cbn. lia. }
  { intros n [[b jb] eb] Hn (Hlb & Hlj & Hle & Hb & Hj & He).
    destruct (lookup_lt_is_Some_2 L n Hn) as [x Hx].
    assert (0 ≤ f x < R) as Hfx. { rewrite Forall_forall in HL. apply HL. by eapply elem_of_list_lookup_2. }
    unfold create_graph_step.
    rewrite (zget_nat K n (f x)) by (unfold K; by rewrite list_lookup_fmap, Hx).
    cbn [mbind res_bind]. rewrite vec_idx1_small by lia.
    rewrite (zget_of b (f x + 1) _ ltac:(lia) (Hb _ Hfx)). cbn [mbind res_bind].
    rewrite zset_of by (unfold zlen; lia). cbn [mbind res_bind].
    rewrite (zget_nat (map g L) n (g x)) by (by rewrite list_lookup_fmap, Hx).
    cbn [mbind res_bind].
    pose proof (bucket_lt f L n x Hx) as Hpos.
    pose proof (lookup_lt_Some _ _ _ Hpos) as Hposlt. rewrite !bucket_len in Hposlt.
    fold K in Hposlt.
    assert (startK K R = length L) as HRL.
    { rewrite startK_all; [by unfold K; rewrite map_length|].
      eapply Forall_impl; [done|]. cbn. lia. }
    pose proof (startK_seg K (f x) R ltac:(lia)) as Hseg.
    rewrite zset_nat by lia. cbn [mbind res_bind].
    eexists. split; [done|]. unfold inv. rewrite !insert_length, app_length. cbn [length].
    assert (take (n + 1) L = take n L ++ [x]) as Htake.
    { rewrite Nat.add_1_r. by apply take_S_r. }
    rewrite Htake. split_and!; try lia.
    - intros r Hr. rewrite map_app. cbn [map]. rewrite cntK_snoc. case_decide as Hd.
      + subst r. rewrite list_lookup_insert by lia. f_equal. lia.
      + rewrite list_lookup_insert_ne by lia. rewrite Hb by done. f_equal. lia.
    - intros r i y Hr Hy. rewrite bucket_snoc in Hy. case_decide as Hd.
      + subst r. apply lookup_snoc_Some in Hy as [[Hi Hy]|[-> <-]].
        * rewrite bucket_len in Hi. rewrite list_lookup_insert_ne by lia. by apply Hj.
        * rewrite bucket_len. apply list_lookup_insert. lia.
      + rewrite list_lookup_insert_ne; [by apply Hj|].
        pose proof (lookup_lt_Some _ _ _ (bucket_prefix _ _ _ _ _ _ Hy)) as Hi.
        rewrite bucket_len in Hi. fold K in Hi.
        destruct (Z.lt_total r (f x)) as [?|[?|?]]; [|congruence|].
        * pose proof (startK_seg K r (f x) ltac:(lia)). lia.
        * pose proof (startK_seg K (f x) r ltac:(lia)). lia.
    - intros i y Hy. apply lookup_snoc_Some in Hy as [[Hi Hy]|[-> <-]].
      + destruct (He i y Hy) as (i' & Hi' & Hb'). exists i'. split; [|done].
        by apply lookup_app_l_Some.
      + rewrite take_length_le by lia. eexists. split; [|by apply bucket_lt].
        rewrite lookup_app_r by lia. rewrite Hle, Nat.sub_diag. cbn. by rewrite bucket_len. }
  cbn [mbind res_bind]. destruct Hinv as (Hl1 & Hlj & Hle & Ha1 & Hj1 & He1).
  rewrite firstn_all in *.
  rewrite zset_of by (unfold zlen; lia). cbn [mbind res_bind].
  assert (length (bsort f R L) = length L) as Hlen' by (apply bsort_full_len; [lia|done]).
  exists (<[Z.to_nat 0:=0]> a1), e1. split_and!.
  - do 3 f_equal. apply list_eq_same_length with (n := length L); rewrite ?map_length; try done.
    intros k y y' Hk Hy Hy'. rewrite list_lookup_fmap in Hy'.
    destruct (startK_find K R k) as (r & i & Hr & -> & Hi); [lia|done|unfold K; rewrite map_length; lia|].
    unfold K in Hy' at 1. rewrite bsort_lookup in Hy' by done.
    destruct (bucket f L r !! i) as [x|] eqn:Ex; [|done].
    rewrite (Hj1 r i x Hr Ex) in Hy. cbn in Hy'. congruence.
  - by rewrite insert_length.
  - intros r Hr. destruct (decide (r = 0)) as [->|].
    + rewrite list_lookup_insert by lia. rewrite startK_0; [done|].
      eapply Forall_impl; [done|]. cbn. lia.
    + rewrite list_lookup_insert_ne by lia. replace r with (r - 1 + 1) by lia.
      rewrite startK_S. apply Ha1. lia.
  - done.
  - intros i x Hx. destruct (He1 i x Hx) as (i' & Hi' & Hb').
    eexists. split; [done|]. unfold K. rewrite bsort_lookup; try done.
    + rewrite Forall_forall in HL. apply HL. by eapply elem_of_list_lookup_2.
    + apply lookup_lt_Some in Hb'. by rewrite bucket_len in Hb'.
Qed.
End acc.
