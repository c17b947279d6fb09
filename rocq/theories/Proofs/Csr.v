(** AssembledConnections::compress builds the CSR form of the added
    connections. *)
From Verif.Model Require Import AssembledConnections.
From Verif.Spec Require Import GraphSpec.
From Verif.Proofs Require Import Util BucketSort.

(** ** Grouped key sequences *)
Definition grouped (R : Z) (K : list Z) : Prop :=
  K = seqZ 0 R ≫= λ r, replicate (cntK K r) r.

Lemma bucket_bucket {A} (f : A → Z) L r r' :
  bucket f (bucket f L r) r' = if decide (r = r') then bucket f L r else [].
Proof.
  unfold bucket. rewrite list_filter_filter. case_decide as Hd.
  - subst. apply list_filter_iff. naive_solver.
  - induction L as [|x L IH]; [done|]. rewrite filter_cons. case_decide; [|done].
    destruct_and!. congruence.
Qed.

Lemma bucket_seq_other {A} (f : A → Z) L lo n r :
  ¬ (lo ≤ r < lo + n) → bucket f (seqZ lo n ≫= bucket f L) r = [].
Proof.
  intros Hr. unfold bucket at 1. apply filter_none.
  apply Forall_forall. intros x (r' & Hx & Hr')%elem_of_list_bind.
  apply elem_of_seqZ in Hr'. apply elem_of_list_filter in Hx as [<- _]. lia.
Qed.

Lemma bucket_bsort {A} (f : A → Z) R L r : 0 ≤ r < R → bucket f (bsort f R L) r = bucket f L r.
Proof.
  intros Hr. rewrite (bsort_split f R L r Hr). unfold bucket at 1. rewrite !filter_app.
  fold (bucket f (bsort f r L) r). fold (bucket f (bucket f L r) r).
  fold (bucket f (seqZ (r + 1) (R - r - 1) ≫= bucket f L) r).
  unfold bsort. rewrite !bucket_seq_other by lia. rewrite bucket_bucket.
  rewrite decide_True by done. cbn. apply app_nil_r.
Qed.

Lemma cntK_bsort {A} (f : A → Z) R L r :
  0 ≤ r < R → cntK (map f (bsort f R L)) r = cntK (map f L) r.
Proof. intros. rewrite <-!bucket_len. by rewrite bucket_bsort. Qed.

Lemma bsort_ran {A} (f : A → Z) (P : A → Prop) R L : Forall P L → Forall P (bsort f R L).
Proof.
  intros H. apply Forall_forall. intros x (r & Hx & _)%elem_of_list_bind.
  apply elem_of_list_filter in Hx as [_ Hx]. by rewrite Forall_forall in H; apply H.
Qed.

Lemma startK_bsort {A} (f : A → Z) R L r : 0 ≤ r ≤ R → Forall (λ x, 0 ≤ f x) L →
  startK (map f (bsort f R L)) r = startK (map f L) r.
Proof.
  intros Hr HL. rewrite <-(Z2Nat.id r) in * by lia.
  induction (Z.to_nat r) as [|n IH].
  - rewrite !startK_0; try done; rewrite Forall_map; [done|by apply bsort_ran].
  - replace (Z.of_nat (S n)) with (Z.of_nat n + 1) by lia.
    rewrite !startK_S, IH, cntK_bsort by lia. done.
Qed.

Lemma map_bucket {A} (f : A → Z) L r : map f (bucket f L r) = replicate (cntK (map f L) r) r.
Proof.
  rewrite <-bucket_len. symmetry. apply replicate_as_elem_of. split; [by rewrite map_length|].
  intros y (x & -> & Hx)%elem_of_list_fmap. by apply elem_of_list_filter in Hx as [? _].
Qed.

Lemma bind_ext_in {A B} (f g : A → list B) l :
  (∀ x, x ∈ l → f x = g x) → l ≫= f = l ≫= g.
Proof.
  induction l as [|x l IH]; intros H; cbn; [done|]. rewrite H by set_solver.
  f_equal. apply IH. set_solver.
Qed.
Lemma map_bind {A B C} (f : A → list B) (g : B → C) l : map g (l ≫= f) = l ≫= λ x, map g (f x).
Proof. induction l as [|x l IH]; cbn; [done|]. by rewrite map_app, IH. Qed.

Lemma grouped_bsort {A} (f : A → Z) R L : grouped R (map f (bsort f R L)).
Proof.
  unfold grouped. unfold bsort at 1. rewrite map_bind. apply bind_ext_in.
  intros r Hr%elem_of_seqZ. rewrite cntK_bsort by lia. apply map_bucket.
Qed.

(** ** What a CSR with element index represents *)
Section rep.
Context {N : Num}.
Context {A : Type}.

(** [L] lists the entries in storage order, [L0] in input order. *)
Record rep (f g : A → Z) (R C : Z) (L0 L : list A) (m : csr) : Prop := {
  rep_R : 0 ≤ R < 2 ^ 62;
  rep_C : 0 ≤ C < 2 ^ 62;
  rep_ran : Forall (λ x, 0 ≤ f x < R ∧ 0 ≤ g x < C) L;
  rep_ialen : length (ia m) = (Z.to_nat R + 1)%nat;
  rep_ia : ∀ r, 0 ≤ r ≤ R → ia m !! Z.to_nat r = Some (Z.of_nat (startK (map f L) r));
  rep_ja : ja m = map g L;
  rep_grp : grouped R (map f L);
  rep_nr : nrows m = R;
  rep_nc : ncols m = C;
  rep_elen : length (elm m) = length L0;
  rep_elm : ∀ i x, L0 !! i = Some x → ∃ k : nat, elm m !! i = Some (Z.of_nat k) ∧ L !! k = Some x
}.

Lemma expand_start_pointers_spec R K a : 0 ≤ R → length a = (Z.to_nat R + 1)%nat →
  (∀ r, 0 ≤ r ≤ R → a !! Z.to_nat r = Some (Z.of_nat (startK K r))) →
  grouped R K → expand_start_pointers a = Ok K.
Proof.
  intros HR Hlen Ha Hg. unfold expand_start_pointers.
  replace (zlen a - 1) with R by (unfold zlen; lia).
  match goal with |- forZ 0 R ?F [] = _ =>
    destruct (forZ_ind_Z R F (λ i acc, acc = seqZ 0 i ≫= λ r, replicate (cntK K r) r) [])
      as (acc & E & ->); [done|by rewrite seqZ_nil| |by rewrite E; rewrite <-Hg] end.
  intros i acc Hi ->.
  rewrite (zget_of a (i + 1) _ ltac:(lia) (Ha (i + 1) ltac:(lia))). cbn [mbind res_bind].
  rewrite (zget_of a i _ ltac:(lia) (Ha i ltac:(lia))). cbn [mbind res_bind].
  rewrite startK_S. destruct (Z.ltb_spec (Z.of_nat (startK K i + cntK K i)) (Z.of_nat (startK K i))); [lia|].
  eexists. split; [done|]. rewrite seqZ_S, bind_app by lia. cbn. rewrite app_nil_r.
  rewrite ?Z.add_0_l. f_equal. f_equal. lia.
Qed.

Lemma remap_spec (old cur : list Z) : (∀ x, x ∈ old → 0 ≤ x < zlen cur) →
  ∃ e, remap_element_index old cur = Ok e ∧ length e = length old ∧
    ∀ i k y, old !! i = Some (Z.of_nat k) → cur !! k = Some y → e !! i = Some y.
Proof.
  intros H. unfold remap_element_index.
  destruct (foldM_inv (λ acc i, x ← zget cur i; Ok (acc ++ [x]))
    (λ l e, length e = length l ∧
      ∀ i k y, l !! i = Some (Z.of_nat k) → cur !! k = Some y → e !! i = Some y) old [])
    as (e & -> & ? & ?); [done| |eauto].
  intros l1 x l2 e Hl [Hlen He].
  destruct (zget_is cur x) as (y & -> & Hy); [apply H; subst; set_solver|]. cbn [mbind res_bind].
  eexists. split; [done|]. rewrite !app_length, Hlen. split; [done|].
  intros i k z [[Hi Hz]|[-> Hz]]%lookup_snoc_Some Hk.
  - rewrite lookup_app_l by lia. eauto.
  - rewrite lookup_app_r, Hlen, Nat.sub_diag by lia. cbn. subst x. rewrite Nat2Z.id in Hy. congruence.
Qed.

Lemma transpose_spec (f g : A → Z) R C L0 L m : rep f g R C L0 L m →
  L0 ≡ₚ L →
  ∃ m', transpose m = Ok m' ∧ rep g f C R L0 (bsort g C L) m' ∧ sa m' = sa m.
Proof.
  intros [HR HC Hran Hial Hia Hja Hgrp Hnr Hnc Hel He] Hp. unfold transpose.
  rewrite (expand_start_pointers_spec R (map f L)) by (done || lia). cbn [mbind res_bind].
  rewrite Hnc, Hja, Hnr.
  assert (Forall (λ x, 0 ≤ g x < C) L) as Hg by (eapply Forall_impl; [done|]; cbn; tauto).
  destruct (accumulate_row_entries_spec C (map g L)) as (a & -> & Hla & Ha0 & Ha);
    [done|by rewrite Forall_map|]. cbn [mbind res_bind].
  destruct (create_graph_spec g f L C a (map g L)) as (a' & e & -> & Hla' & Ha' & Hle & He');
    try done.
  { rewrite Ha0. unfold zlen. by rewrite map_length. }
  cbn [mbind res_bind].
  destruct (remap_spec (elm m) e) as (e'' & -> & Hle'' & He'').
  { intros x (i & Hi)%elem_of_list_lookup. destruct (lookup_lt_is_Some_2 L0 i) as [y Hy].
    { rewrite <-Hel. by eapply lookup_lt_Some. }
    destruct (He i y Hy) as (k & Hk & HLk). rewrite Hk in Hi. injection Hi as <-.
    apply lookup_lt_Some in HLk. unfold zlen. lia. }
  cbn [mbind res_bind]. eexists. split; [done|]. split; [|done]. split; cbn; try done.
  - apply bsort_ran. apply (Forall_impl _ _ _ Hran). cbn; tauto.
  - intros r Hr. rewrite startK_bsort; [by apply Ha'|done|]. eapply Forall_impl; [done|]. cbn; lia.
  - apply grouped_bsort.
  - congruence.
  - intros i x Hx. destruct (He i x Hx) as (k & Hk & HLk).
    destruct (He' k x HLk) as (k' & Hk' & HLk'). exists k'. split; [|done]. by eapply He''.
Qed.
End rep.

(** Permutation, from absence of duplicates. *)
Lemma bsort_perm {A} (f : A → Z) R L : Forall (λ x, 0 ≤ f x < R) L → bsort f R L ≡ₚ L.
Proof.
  intros HL. unfold bsort.
  induction L as [|x L IH].
  - induction (seqZ 0 R); [done|]. done.
  - inv HL. rewrite <-IH at 2 by done.
    assert (seqZ 0 R = seqZ 0 (f x) ++ f x :: seqZ (f x + 1) (R - f x - 1)) as ->.
    { replace R with (f x + (1 + (R - f x - 1))) at 1 by lia.
      rewrite seqZ_app by lia. f_equal. rewrite seqZ_cons by lia. f_equal. f_equal; lia. }
    assert (∀ l, f x ∉ l → l ≫= bucket f (x :: L) = l ≫= bucket f L) as Hno.
    { intros l Hl. apply bind_ext_in. intros y Hy. unfold bucket.
      rewrite filter_cons. case_decide; [subst; done|done]. }
    rewrite !bind_app. cbn.
    rewrite !Hno by (rewrite elem_of_seqZ; lia).
    rewrite decide_True by done. cbn. by rewrite <-Permutation_middle.
Qed.

(** ** Removal of consecutive duplicates *)
Fixpoint ddf (y : Z) (l : list Z) : list Z :=
  match l with
  | [] => []
  | x :: l' => if x =? y then ddf y l' else x :: ddf x l'
  end.
Definition dd (l : list Z) : list Z := match l with [] => [] | x :: l' => x :: ddf x l' end.

Lemma ddf_elem y l c : c ∈ y :: ddf y l ↔ c ∈ y :: l.
Proof.
  revert y. induction l as [|x l IH]; intros y; [done|]. cbn.
  destruct (Z.eqb_spec x y) as [->|].
  - rewrite IH. set_solver.
  - rewrite elem_of_cons, IH. set_solver.
Qed.
Lemma dd_elem l c : c ∈ dd l ↔ c ∈ l.
Proof. destruct l; [done|]. apply ddf_elem. Qed.

Lemma ddf_sorted y l : StronglySorted Z.le (y :: l) → StronglySorted Z.lt (y :: ddf y l).
Proof.
  revert y. induction l as [|x l IH]; intros y H.
  - repeat constructor.
  - cbn. apply StronglySorted_inv in H as [H Hy]. apply Forall_cons in Hy as [Hyx Hy].
    apply StronglySorted_inv in H as [H Hx]. destruct (Z.eqb_spec x y) as [->|].
    + apply IH. by constructor.
    + specialize (IH x ltac:(by constructor)). constructor; [done|].
      apply Forall_forall. intros c Hc. rewrite ddf_elem in Hc. rewrite Forall_forall in Hx.
      apply elem_of_cons in Hc as [->|Hc]; [lia|]. specialize (Hx _ Hc). lia.
Qed.
Lemma dd_sorted l : StronglySorted Z.le l → StronglySorted Z.lt (dd l).
Proof. destruct l; [constructor|]. apply ddf_sorted. Qed.

Lemma last_snoc {A} (l : list A) x d : List.last (l ++ [x]) d = x.
Proof. apply List.last_last. Qed.

Lemma unique_seg_false seg y (j0 e0 : list Z) :
  ∃ ps, unique_seg false seg (j0 ++ [y]) (e0 ++ [zlen j0]) =
        (j0 ++ y :: ddf y seg, e0 ++ zlen j0 :: ps) ∧ length ps = length seg ∧
    ∀ t c, seg !! t = Some c → ∃ idx : nat,
      ps !! t = Some (zlen j0 + Z.of_nat idx) ∧ (y :: ddf y seg) !! idx = Some c.
Proof.
  revert y j0 e0. induction seg as [|x seg IH]; intros y j0 e0.
  - exists []. by split_and!.
  - cbn [unique_seg ddf]. rewrite !last_snoc. cbn [negb andb].
    destruct (Z.eqb_spec x y) as [->|Hne].
    + destruct (IH y j0 (e0 ++ [zlen j0])) as (ps & E & Hl & Hps).
      exists (zlen j0 :: ps). rewrite E. split_and!.
      * by rewrite <-app_assoc.
      * cbn. lia.
      * intros [|t] c Ht; cbn in Ht.
        -- injection Ht as <-. exists O. cbn. split; [f_equal; lia|done].
        -- by apply Hps.
    + assert (zlen (j0 ++ [y]) = zlen j0 + 1) as Hz by (unfold zlen; rewrite app_length; cbn; lia).
      destruct (IH x (j0 ++ [y]) (e0 ++ [zlen j0])) as (ps & E & Hl & Hps).
      exists (zlen (j0 ++ [y]) :: ps). rewrite E. split_and!.
      * by rewrite <-!app_assoc.
      * cbn. lia.
      * intros [|t] c Ht; cbn in Ht.
        -- injection Ht as <-. exists 1%nat. cbn. split; [by rewrite Hz|done].
        -- destruct (Hps t c Ht) as (idx & Hp & Hc). exists (S idx). cbn.
           split; [|done]. etransitivity; [exact Hp|]. f_equal. lia.
Qed.

Lemma unique_seg_true seg (j e : list Z) :
  ∃ ps, unique_seg true seg j e = (j ++ dd seg, e ++ ps) ∧ length ps = length seg ∧
    ∀ t c, seg !! t = Some c → ∃ idx : nat,
      ps !! t = Some (zlen j + Z.of_nat idx) ∧ dd seg !! idx = Some c.
Proof.
  destruct seg as [|x seg].
  - exists []. cbn. rewrite !app_nil_r. by split_and!.
  - cbn [unique_seg negb andb]. destruct (unique_seg_false seg x j e) as (ps & E & Hl & Hps).
    exists (zlen j :: ps). rewrite E. split_and!; [done|cbn; lia|].
    intros [|t] c Ht; cbn in Ht.
    + injection Ht as <-. exists O. split; [cbn; f_equal; lia|done].
    + by apply Hps.
Qed.

(** ** Rows of the condensed graph *)
Notation row := (@fst Z Z).
Notation col := (@snd Z Z).

Definition nbrs (L : list (Z * Z)) (r : Z) : list Z := dd (map col (bucket row L r)).
Definition rows_upto (L : list (Z * Z)) (r : Z) : list Z := seqZ 0 r ≫= nbrs L.

Lemma rows_upto_S L r : 0 ≤ r → rows_upto L (r + 1) = rows_upto L r ++ nbrs L r.
Proof.
  intros. unfold rows_upto. rewrite seqZ_S, bind_app by done. cbn. by rewrite app_nil_r.
Qed.
Lemma rows_upto_split L r R : 0 ≤ r ≤ R → ∃ rest, rows_upto L R = rows_upto L r ++ rest.
Proof.
  intros. unfold rows_upto. replace R with (r + (R - r)) by lia.
  rewrite seqZ_app, bind_app by lia. eauto.
Qed.
Lemma rows_upto_mono L r R : 0 ≤ r ≤ R → (length (rows_upto L r) ≤ length (rows_upto L R))%nat.
Proof. intros [rest ->]%(rows_upto_split L). rewrite app_length. lia. Qed.
Lemma rows_upto_slice L r R : 0 ≤ r < R →
  slice (rows_upto L R) (Z.of_nat (length (rows_upto L r))) (Z.of_nat (length (rows_upto L (r + 1))))
  = nbrs L r.
Proof.
  intros Hr. destruct (rows_upto_split L (r + 1) R) as [rest ->]; [lia|].
  rewrite rows_upto_S by lia. unfold slice. rewrite app_length, <-app_assoc.
  rewrite Nat2Z.id. rewrite drop_app_alt by done.
  rewrite take_app_alt; [done|]. lia.
Qed.

Section condense.
Context {N : Num}.

Record crep (R : Z) (L0 : list (Z * Z)) (L : list (Z * Z)) (m : csr) : Prop := {
  crep_ialen : length (ia m) = (Z.to_nat R + 1)%nat;
  crep_ia : ∀ r, 0 ≤ r ≤ R → ia m !! Z.to_nat r = Some (Z.of_nat (length (rows_upto L r)));
  crep_ja : ja m = rows_upto L R;
  crep_elen : length (elm m) = length L0;
  crep_elm : ∀ i x, L0 !! i = Some x → ∃ idx : nat,
    elm m !! i = Some (Z.of_nat (length (rows_upto L x.1) + idx)) ∧ nbrs L x.1 !! idx = Some x.2
}.

Lemma condense_spec R C L0 L m : rep row col R C L0 L m → L = bsort row R L →
  ∃ m', condense_duplicates m = Ok m' ∧ crep R L0 L m' ∧ sa m' = sa m.
Proof.
  intros [HR HC Hran Hial Hia Hja Hgrp Hnr Hnc Hel He] HLs. unfold condense_duplicates.
  replace (zlen (ia m) - 1) with R by (unfold zlen; lia).
  set (K := map row L) in *.
  assert (HL0 : Forall (λ x : Z * Z, 0 ≤ x.1) L).
  { apply (Forall_impl _ _ _ Hran). cbn. lia. }
  assert (HK : Forall (λ x, 0 ≤ x < R) K).
  { unfold K. rewrite Forall_map. apply (Forall_impl _ _ _ Hran). cbn; tauto. }
  assert (HKR : startK K R = length L).
  { rewrite startK_all; [by unfold K; rewrite map_length|]. apply (Forall_impl _ _ _ HK). cbn; lia. }
  set (inv := λ (i : Z) (st : list Z * list Z * list Z * Z),
    let '(a, j, e, en) := st in
    length a = (Z.to_nat R + 1)%nat ∧
    (∀ r, 0 ≤ r < i → a !! Z.to_nat r = Some (Z.of_nat (length (rows_upto L r)))) ∧
    (∀ r, i ≤ r ≤ R → a !! Z.to_nat r = Some (Z.of_nat (startK K r))) ∧
    j = rows_upto L i ∧ en = Z.of_nat (startK K i) ∧ length e = startK K i ∧
    (∀ r t c, 0 ≤ r < i → map col (bucket row L r) !! t = Some c → ∃ idx : nat,
       e !! (startK K r + t)%nat = Some (Z.of_nat (length (rows_upto L r) + idx)) ∧
       nbrs L r !! idx = Some c)).
  destruct (forZ_ind_Z R (condense_row (ja m)) inv (ia m, [], [], 0))
    as ([[[a j] e] en] & -> & Hinv); [lia| | |].
  { unfold inv. rewrite startK_0 by (apply (Forall_impl _ _ _ HK); cbn; lia).
    split_and!; try done; intros; try lia. }
  { intros i [[[a j] e] en] Hi (Hla & Hlo & Hhi & -> & -> & Hle & Hel').
    unfold condense_row.
    rewrite (zget_of a (i + 1) _ ltac:(lia) (Hhi (i + 1) ltac:(lia))). cbn [mbind res_bind].
    rewrite (zget_of a i _ ltac:(lia) (Hhi i ltac:(lia))). cbn [mbind res_bind].
    rewrite startK_S.
    replace (Z.of_nat (startK K i) + (Z.of_nat (startK K i + cntK K i) - Z.of_nat (startK K i)))
      with (Z.of_nat (startK K (i + 1))) by (rewrite startK_S; lia).
    assert (zslice (ja m) (Z.of_nat (startK K i)) (Z.of_nat (startK K (i + 1)))
      = Ok (map col (bucket row L i))) as ->.
    { apply zslice_Ok. pose proof (startK_mono K i (i + 1) ltac:(lia)).
      pose proof (startK_mono K (i + 1) R ltac:(lia)).
      rewrite Hja. unfold zlen. rewrite map_length. split_and!; [lia|lia|lia|].
      rewrite HLs at 2. rewrite (bsort_split row R L i) by lia. rewrite !map_app.
      rewrite drop_app_alt by (rewrite map_length, bsort_len by (done || lia); fold K; lia).
      rewrite take_app_alt; [done|]. rewrite map_length, bucket_len, startK_S. fold K. lia. }
    cbn [mbind res_bind].
    destruct (unique_seg_true (map col (bucket row L i)) (rows_upto L i) e) as (ps & -> & Hlps & Hps).
    rewrite zset_of by (unfold zlen; lia). cbn [mbind res_bind].
    eexists. split; [done|]. unfold inv. rewrite insert_length. split_and!.
    - done.
    - intros r Hr. destruct (decide (r = i)) as [->|].
      + rewrite list_lookup_insert by lia. done.
      + rewrite list_lookup_insert_ne by lia. apply Hlo. lia.
    - intros r Hr. rewrite list_lookup_insert_ne by lia. apply Hhi. lia.
    - by rewrite rows_upto_S by lia.
    - done.
    - rewrite app_length, Hle, Hlps, map_length, bucket_len, startK_S. done.
    - intros r t c Hr Ht. destruct (decide (r = i)) as [->|].
      + rewrite lookup_app_r by lia. rewrite Hle.
        replace (startK K i + t - startK K i)%nat with t by lia.
        destruct (Hps t c Ht) as (idx & Hp & Hc). exists idx. split; [|done]. rewrite Hp.
        f_equal. unfold zlen. lia.
      + pose proof (lookup_lt_Some _ _ _ Ht) as Hlt. rewrite map_length, bucket_len in Hlt. fold K in Hlt.
        pose proof (startK_seg K r i ltac:(lia)).
        rewrite lookup_app_l by lia. apply Hel'; [lia|done]. }
  cbn [mbind res_bind]. destruct Hinv as (Hla & Hlo & Hhi & -> & _ & Hle & Hel').
  destruct (remap_spec (elm m) e) as (e'' & -> & Hle'' & He'').
  { intros x (i & Hi)%elem_of_list_lookup. destruct (lookup_lt_is_Some_2 L0 i) as [y Hy].
    { rewrite <-Hel. by eapply lookup_lt_Some. }
    destruct (He i y Hy) as (k & Hk & HLk). rewrite Hk in Hi. injection Hi as <-.
    apply lookup_lt_Some in HLk. unfold zlen. lia. }
  cbn [mbind res_bind]. rewrite zset_of by (unfold zlen; lia). cbn [mbind res_bind].
  eexists. split; [done|]. split; [|done]. split; cbn.
  - by rewrite insert_length.
  - intros r Hr. replace (Z.to_nat (zlen a - 1)) with (Z.to_nat R) by (unfold zlen; lia).
    destruct (decide (r = R)) as [->|].
    + rewrite list_lookup_insert by lia. done.
    + rewrite list_lookup_insert_ne by lia. apply Hlo. lia.
  - done.
  - congruence.
  - intros i x Hx. destruct (He i x Hx) as (k & Hk & HLk).
    assert (0 ≤ x.1 < R) as Hxr.
    { rewrite Forall_forall in Hran. apply (Hran x). by eapply elem_of_list_lookup_2. }
    destruct (startK_find K R k) as (r & t & Hr & -> & Ht); [lia|done| |].
    { unfold K. rewrite map_length. by eapply lookup_lt_Some. }
    rewrite HLs in HLk. unfold K in HLk. rewrite bsort_lookup in HLk by done.
    pose proof (elem_of_list_lookup_2 _ _ _ HLk) as Hin. apply elem_of_list_filter in Hin as [<- _].
    destruct (Hel' x.1 t x.2) as (idx & Hidx & Hnb); [done|by rewrite list_lookup_fmap, HLk|].
    exists idx. split; [|done]. by eapply He''.
Qed.
End condense.
