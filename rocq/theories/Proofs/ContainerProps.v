(** Proofs of the statements in Props/Containers.v. *)
From Coq Require Import QArith Qcanon String Ascii.
From Verif.Model Require Import Containers Solution RandomVector.
From Verif.Spec Require Import ContainerSpec.
From Verif.Proofs Require Import Util OMapFacts.
Open Scope Z_scope.

(** ** ConnectivityGraph *)
Lemma flatten_len ps : zlen (flatten_pairs ps) = 2 * zlen ps.
Proof.
  unfold flatten_pairs, zlen. induction ps as [|p ps IH]; cbn; [done|].
  cbn in IH. lia.
Qed.
Lemma flatten_lookup ps k p : ps !! k = Some p →
  flatten_pairs ps !! (2 * k)%nat = Some p.1 ∧ flatten_pairs ps !! (2 * k + 1)%nat = Some p.2.
Proof.
  revert k. induction ps as [|p' ps IH]; intros k Hk; [done|].
  destruct k as [|k]; cbn in Hk.
  - injection Hk as ->. done.
  - destruct (IH k Hk) as [H1 H2]. unfold flatten_pairs in *.
    replace (2 * S k)%nat with (S (S (2 * k))) by lia.
    replace (S (S (2 * k)) + 1)%nat with (S (S (2 * k + 1))) by lia. cbn [mbind list_bind app]. done.
Qed.

Lemma max_element_ge l x : x ∈ l → x ≤ max_element l.
Proof.
  unfold max_element. generalize (hd 0 l). intros a Hx.
  assert (∀ l a, a ≤ foldl Z.max a l) as Hmono.
  { clear. induction l as [|y l IH]; intros a; cbn; [lia|]. specialize (IH (Z.max a y)). lia. }
  revert a. induction Hx as [x l|x y l Hx IH]; intros a; cbn; [|apply IH].
  specialize (Hmono l (Z.max a x)). lia.
Qed.
Lemma max_element_in l : l ≠ [] → max_element l ∈ l.
Proof.
  intros Hne. unfold max_element. destruct l as [|x l]; [done|]. cbn. rewrite Z.max_id.
  clear Hne. revert x. induction l as [|y l IH]; intros x; cbn; [set_solver|].
  specialize (IH (Z.max x y)). destruct (Z.max_spec x y) as [[_ E]|[_ E]]; rewrite E in *; set_solver.
Qed.

Lemma cg_make_outcome n (cells : list Z) :
  (cg_make n cells = Throw LogicError ∧ (Z.Odd (zlen cells) ∨ Exists (λ c, n ≤ c) cells)) ∨
  (cg_make n cells = Ok (mkCgraph (to_size n) cells) ∧ Z.Even (zlen cells) ∧ Forall (λ c, c < n) cells).
Proof.
  unfold cg_make. destruct (Z.eqb_spec (zlen cells mod 2) 0) as [He|Ho]; cbn [negb].
  - assert (Z.Even (zlen cells)) as Hev by (exists (zlen cells / 2); pose proof (Z.div_mod (zlen cells) 2); lia).
    destruct cells as [|c cells'] eqn:Ec; [right; split_and!; done|]. rewrite <-Ec in *. cbn [andb].
    assert (cells ≠ []) as Hne by (by rewrite Ec).
    destruct (Z.leb_spec n (max_element cells)) as [Hle|Hgt].
    + left. split; [done|]. right. apply Exists_exists. eexists. split; [by apply max_element_in|done].
    + right. split_and!; [done|done|]. apply Forall_forall. intros x Hx%max_element_ge. lia.
  - left. split; [done|]. left. exists (zlen cells / 2).
    pose proof (Z.div_mod (zlen cells) 2). pose proof (Z.mod_pos_bound (zlen cells) 2). lia.
Qed.

Lemma graph_outcome n (cells : list Z) : 0 ≤ n → Forall (λ c, 0 ≤ c) cells →
  (cg_make n cells = Throw LogicError ↔ Z.Odd (zlen cells) ∨ Exists (λ c, ¬ (0 ≤ c < n)) cells) ∧
  (cg_make n cells ≠ Throw LogicError → ∃ g, cg_make n cells = Ok g).
Proof.
  intros Hn Hpos. destruct (cg_make_outcome n cells) as [[E H]|[E [He Hf]]]; rewrite E.
  - split; [|done]. split; [|done]. intros _. destruct H as [H|H]; [by left|right].
    eapply Exists_impl; [exact H|]. cbn. lia.
  - split; [|eauto]. split; [done|]. intros [Ho|Hex].
    + exfalso. by apply (Z.Even_Odd_False (zlen cells)).
    + exfalso. apply Exists_exists in Hex as (c & Hc & Hbad). rewrite Forall_forall in Hpos, Hf.
      apply Hbad. split; auto.
Qed.

Lemma graph_table n (ps : list (Z * Z)) g : 0 ≤ n < 2 ^ 31 → cg_make n (flatten_pairs ps) = Ok g →
  cg_num_cells g = n ∧ cg_num_connections g = zlen ps ∧
  ∀ k p, ps !! k = Some p → cg_connection g (Z.of_nat k) = Ok p.
Proof.
  intros Hn Hg. destruct (cg_make_outcome n (flatten_pairs ps)) as [[E _]|[E _]]; [congruence|].
  rewrite E in Hg. injection Hg as <-. cbn.
  assert (cg_num_connections (mkCgraph (to_size n) (flatten_pairs ps)) = zlen ps) as Hc.
  { unfold cg_num_connections. cbn. rewrite flatten_len, Z.mul_comm. by apply Z.div_mul. }
  split_and!; [by apply to_size_small; lia|done|].
  intros k [a b] Hk. unfold cg_connection. rewrite Hc.
  pose proof (lookup_lt_Some _ _ _ Hk). destruct (Z.ltb_spec (Z.of_nat k) (zlen ps)); [|unfold zlen in *; lia].
  cbn [assert_ mbind res_bind]. destruct (flatten_lookup ps k _ Hk) as [H1 H2]. cbn [fst snd] in *.
  replace (2 * Z.of_nat k) with (Z.of_nat (2 * k)) by lia.
  replace (Z.of_nat (2 * k) + 1) with (Z.of_nat (2 * k + 1)) by lia.
  cbn [cg_cells]. rewrite (zget_nat _ _ _ H1). cbn [mbind res_bind]. rewrite (zget_nat _ _ _ H2). done.
Qed.

(** ** ConnectionValues *)
Section cv.
Context {N : Num}.

(** A caller that writes a list of values (oldest first) and catches the
    exceptions of the rejected ones. *)
Definition cv_write (v : cvalues) (w : Z * Z * num) : res cvalues :=
  match cv_set v w.1.1 w.1.2 w.2 with Throw _ => Ok v | r => r end.
Definition cv_writes (v : cvalues) (ws : list (Z * Z * num)) : res cvalues :=
  foldM cv_write v ws.
Definition is_size2 (w : Z * Z * num) : Prop := 0 ≤ w.1.1 ∧ 0 ≤ w.1.2.

Definition in_range (nc np : Z) (w : Z * Z) : Prop := 0 ≤ w.1 < nc ∧ 0 ≤ w.2 < np.

Lemma offset_lt nc np c p : in_range nc np (c, p) → 0 ≤ c * np + p < nc * np.
Proof. unfold in_range. cbn. nia. Qed.

Lemma offset_inj nc np c p c' p' : in_range nc np (c, p) → in_range nc np (c', p') →
  c * np + p = c' * np + p' → c = c' ∧ p = p'.
Proof.
  unfold in_range. cbn. intros [] [] E.
  assert (c = c') as -> by nia. lia.
Qed.

Lemma cv_offset_ok nc np d c p : in_range nc np (c, p) → nc * np < 2 ^ 64 →
  cv_offset (mkCvalues nc np d) c p = c * np + p.
Proof.
  intros Hr Hlt. pose proof (offset_lt _ _ _ _ Hr). unfold cv_offset. cbn.
  unfold in_range in Hr. cbn in Hr.
  rewrite (to_size_small (c * np)) by nia. apply to_size_small. lia.
Qed.

Lemma last_write_app {K V} `{EqDecision K} (d : V) (ws : list (K * V)) k x k' :
  last_write d (ws ++ [(k, x)]) k' = if decide (k = k') then x else last_write d ws k'.
Proof.
  unfold last_write.
  assert (∀ l1 l2 : list (K * V), omap (λ w, if decide (w.1 = k') then Some w.2 else None) (l1 ++ l2) =
    omap (λ w, if decide (w.1 = k') then Some w.2 else None) l1 ++
    omap (λ w, if decide (w.1 = k') then Some w.2 else None) l2) as ->.
  { induction l1 as [|y l1 IH]; intros l2; [done|]. cbn. case_decide; cbn; by rewrite IH. }
  cbn. case_decide; cbn.
  - by rewrite last_snoc.
  - by rewrite app_nil_r.
Qed.

Lemma cv_writes_spec nc np (ws : list (Z * Z * num)) : 0 ≤ nc → 0 ≤ np → nc * np < 2 ^ 64 →
  Forall is_size2 ws →
  ∃ d, cv_writes (cv_make nc np) ws = Ok (mkCvalues nc np d) ∧ zlen d = nc * np ∧
    ∀ c p, in_range nc np (c, p) → d !! Z.to_nat (c * np + p) = Some (last_write n0 ws (c, p)).
Proof.
  intros Hnc Hnp Hlt Hws. unfold cv_writes.
  destruct (foldM_inv cv_write
    (λ ws v, ∃ d, v = mkCvalues nc np d ∧ zlen d = nc * np ∧
      ∀ c p, in_range nc np (c, p) → d !! Z.to_nat (c * np + p) = Some (last_write n0 ws (c, p)))
    ws (cv_make nc np)) as (v & E & d & -> & Hd); [| |eauto].
  - unfold cv_make. eexists. split; [done|]. unfold zlen. rewrite replicate_length.
    rewrite to_size_small by nia. split; [nia|]. intros c p Hr. pose proof (offset_lt _ _ _ _ Hr).
    apply lookup_replicate. split; [done|lia].
  - intros ws1 [[c p] x] ws2 v -> (d & -> & Hl & Hd).
    assert (is_size2 (c, p, x)) as [Hc0 Hp0].
    { rewrite Forall_forall in Hws. apply (Hws (c, p, x)). set_solver. }
    cbn in Hc0, Hp0. unfold cv_write, cv_set. cbn [cv_nconn cv_nphase fst snd].
    destruct ((nc <=? c) || (np <=? p)) eqn:Hout.
    { eexists. split; [done|]. exists d. split_and!; [done|done|]. intros c' p' Hr'.
      rewrite last_write_app, decide_False; [by apply Hd|]. intros [= -> ->].
      unfold in_range in Hr'. cbn in Hr'. apply orb_true_iff in Hout. rewrite !Z.leb_le in Hout. lia. }
    assert (in_range nc np (c, p)) as Hr.
    { apply orb_false_iff in Hout. rewrite !Z.leb_gt in Hout. unfold in_range. cbn. lia. }
    pose proof (offset_lt _ _ _ _ Hr) as Hoff.
    rewrite cv_offset_ok by done. cbn [cv_data]. rewrite zset_of by lia. cbn [mbind res_bind].
    eexists. split; [done|]. eexists. split; [done|]. unfold zlen in *. rewrite insert_length.
    split; [done|]. intros c' p' Hr'. pose proof (offset_lt _ _ _ _ Hr') as Hoff'.
    rewrite last_write_app. case_decide as Hd'.
    + injection Hd' as <- <-. apply list_lookup_insert. lia.
    + rewrite list_lookup_insert_ne; [by apply Hd|]. intros Hc.
      apply Hd'. assert (c * np + p = c' * np + p') as Heq by lia.
      destruct (offset_inj _ _ _ _ _ _ Hr Hr' Heq). by subst.
Qed.

Lemma cv_store nc np (ws : list (Z * Z * num)) : 0 ≤ nc → 0 ≤ np → nc * np < 2 ^ 64 →
  Forall is_size2 ws →
  ∃ v, cv_writes (cv_make nc np) ws = Ok v ∧
    cv_num_connections v = nc ∧ cv_num_phases v = np ∧
    ∀ c p, in_range nc np (c, p) → cv_get v c p = Ok (last_write n0 ws (c, p)).
Proof.
  intros Hnc Hnp Hlt Hws. destruct (cv_writes_spec nc np ws) as (d & E & Hl & Hd); try done.
  eexists. split; [done|]. split_and!; [done|done|]. intros c p Hr. unfold cv_get. cbn [cv_nconn cv_nphase].
  assert ((nc <=? c) || (np <=? p) = false) as ->.
  { unfold in_range in Hr. cbn in Hr. apply orb_false_iff. rewrite !Z.leb_gt. lia. }
  rewrite cv_offset_ok by done. cbn [cv_data]. apply zget_of; [|by apply Hd].
  pose proof (offset_lt _ _ _ _ Hr). lia.
Qed.

Lemma cv_range nc np (ws : list (Z * Z * num)) v c p x : 0 ≤ nc → 0 ≤ np → nc * np < 2 ^ 64 →
  Forall is_size2 ws → cv_writes (cv_make nc np) ws = Ok v → 0 ≤ c → 0 ≤ p →
  (cv_num_connections v ≤ c ∨ cv_num_phases v ≤ p →
     cv_get v c p = Throw LogicError ∧ cv_set v c p x = Throw LogicError) ∧
  (¬ (cv_num_connections v ≤ c ∨ cv_num_phases v ≤ p) →
     (∃ y, cv_get v c p = Ok y) ∧ (∃ v', cv_set v c p x = Ok v')).
Proof.
  intros Hnc Hnp Hlt Hws E Hc Hp. destruct (cv_writes_spec nc np ws) as (d & E' & Hl & Hd); try done.
  rewrite E in E'. injection E' as ->. unfold cv_num_connections, cv_num_phases, cv_get, cv_set.
  cbn [cv_nconn cv_nphase cv_data]. split.
  - intros Hout. assert ((nc <=? c) || (np <=? p) = true) as ->; [|done].
    apply orb_true_iff. rewrite !Z.leb_le. done.
  - intros Hin. assert (in_range nc np (c, p)) as Hr by (unfold in_range; cbn; lia).
    assert ((nc <=? c) || (np <=? p) = false) as -> by (apply orb_false_iff; rewrite !Z.leb_gt; lia).
    pose proof (offset_lt _ _ _ _ Hr). rewrite cv_offset_ok by done. split.
    + destruct (zget_is d (c * np + p)) as (y & -> & _); [lia|eauto].
    + rewrite zset_of by lia. cbn. eauto.
Qed.
Lemma cv_offset_slot nc np d c p : cv_offset (mkCvalues nc np d) c p = slot np (c, p).
Proof. unfold cv_offset, slot, to_size. cbn [cv_nphase fst snd]. apply Zplus_mod_idemp_l. Qed.

Lemma slot_nonneg np k : 0 ≤ slot np k.
Proof. apply Z.mod_pos_bound. lia. Qed.

(** After the writes: the values, or the first write outside the array. *)
Lemma cv_writes_exactly nc np (ws : list (Z * Z * num)) :
  let size := (nc * np) mod 2 ^ 64 in
  (Forall (λ w, w.1 < size) (slot_writes nc np ws) ∧
   ∃ d, cv_writes (cv_make nc np) ws = Ok (mkCvalues nc np d) ∧ zlen d = size ∧
     ∀ k, 0 ≤ k < size → d !! Z.to_nat k = Some (last_write n0 (slot_writes nc np ws) k)) ∨
  (Exists (λ w, size ≤ w.1) (slot_writes nc np ws) ∧ cv_writes (cv_make nc np) ws = UB).
Proof.
  intros size. assert (0 ≤ size) as Hsz by (apply Z.mod_pos_bound; lia).
  induction ws as [|[[c p] x] ws IH] using rev_ind.
  { left. split; [constructor|]. eexists. split; [done|]. unfold to_size. fold size.
    unfold zlen. rewrite replicate_length. split; [lia|]. intros k Hk. apply lookup_replicate. split; [done|lia]. }
  assert (slot_writes nc np (ws ++ [(c, p, x)]) = slot_writes nc np ws ++
    (if decide (c < nc ∧ p < np) then [(slot np (c, p), x)] else [])) as Hsw.
  { unfold slot_writes. rewrite filter_app, map_app. f_equal. rewrite filter_cons. cbn [fst snd].
    rewrite filter_nil. by case_decide. }
  rewrite Hsw. unfold cv_writes in *. rewrite foldM_app.
  destruct IH as [(HF & d & E & Hl & Hd)|(HE & E)].
  2: { right. split; [apply Exists_app; by left|]. by rewrite E. }
  rewrite E. cbn [mbind res_bind foldM]. unfold cv_write, cv_set. cbn [cv_nconn cv_nphase cv_data fst snd].
  case_decide as Hin.
  2: { assert ((nc <=? c) || (np <=? p) = true) as -> by (apply orb_true_iff; rewrite !Z.leb_le; lia).
    cbn [mbind res_bind]. rewrite app_nil_r. left. split; [done|]. eauto. }
  assert ((nc <=? c) || (np <=? p) = false) as -> by (apply orb_false_iff; rewrite !Z.leb_gt; lia).
  rewrite cv_offset_slot. pose proof (slot_nonneg np (c, p)) as H0.
  destruct (decide (slot np (c, p) < size)) as [Hlt|Hge].
  - left. split; [apply Forall_app; split; [done|by repeat constructor]|].
    rewrite zset_of by lia. cbn [mbind res_bind]. eexists. split; [done|].
    unfold zlen in *. rewrite insert_length. split; [done|]. intros k Hk.
    rewrite last_write_app. case_decide as Ek.
    + subst k. apply list_lookup_insert. lia.
    + rewrite list_lookup_insert_ne by lia. by apply Hd.
  - right. split; [apply Exists_app; right; constructor; cbn; lia|].
    unfold zset. destruct (Z.ltb_spec (slot np (c, p)) 0); [lia|].
    rewrite (proj2 (lookup_ge_None d (Z.to_nat (slot np (c, p))))); [done|]. unfold zlen in *. lia.
Qed.

Lemma cv_access_exactly nc np (ws : list (Z * Z * num)) v c p x : cv_writes (cv_make nc np) ws = Ok v →
  (nc ≤ c ∨ np ≤ p → cv_get v c p = Throw LogicError ∧ cv_set v c p x = Throw LogicError) ∧
  (c < nc → p < np → slot np (c, p) < (nc * np) mod 2 ^ 64 →
     cv_get v c p = Ok (last_write n0 (slot_writes nc np ws) (slot np (c, p))) ∧
     ∃ v', cv_set v c p x = Ok v') ∧
  (c < nc → p < np → (nc * np) mod 2 ^ 64 ≤ slot np (c, p) →
     cv_get v c p = UB ∧ cv_set v c p x = UB).
Proof.
  intros E. destruct (cv_writes_exactly nc np ws) as [(_ & d & E' & Hl & Hd)|[_ E']]; [|congruence].
  rewrite E in E'. injection E' as ->. unfold cv_get, cv_set. cbn [cv_nconn cv_nphase cv_data].
  rewrite cv_offset_slot. pose proof (slot_nonneg np (c, p)) as H0. split_and!.
  - intros Hout. assert ((nc <=? c) || (np <=? p) = true) as ->; [|done].
    apply orb_true_iff. by rewrite !Z.leb_le.
  - intros Hc Hp Hs. assert ((nc <=? c) || (np <=? p) = false) as -> by (apply orb_false_iff; rewrite !Z.leb_gt; lia).
    split; [apply zget_of; [done|by apply Hd]|]. rewrite zset_of by lia. cbn. eauto.
  - intros Hc Hp Hs. assert ((nc <=? c) || (np <=? p) = false) as -> by (apply orb_false_iff; rewrite !Z.leb_gt; lia).
    unfold zget, zset. destruct (Z.ltb_spec (slot np (c, p)) 0); [lia|].
    rewrite (proj2 (lookup_ge_None d (Z.to_nat (slot np (c, p))))); [done|]. unfold zlen in *. lia.
Qed.
End cv.

Lemma cv_wrap (N : Num) : ∃ nc np c p, 0 ≤ c < nc ∧ 0 ≤ p < np ∧ nc < 2 ^ 64 ∧ np < 2 ^ 64 ∧
  cv_get (cv_make nc np) c p = UB.
Proof. exists (2 ^ 32), (2 ^ 32), 0, 0. split_and!; reflexivity || (cbn; lia). Qed.

(** ** CellSet *)
Lemma cs_inserts c (l : list Z) : NoDup (cs_cells c) →
  let c' := foldl cs_insert c l in
  cs_id c' = cs_id c ∧ NoDup (cs_cells c') ∧ ∀ x, x ∈ cs_cells c' ↔ x ∈ cs_cells c ∨ x ∈ l.
Proof.
  revert c. induction l as [|y l IH]; intros c Hnd; cbn; [set_solver|].
  destruct (IH (cs_insert c y)) as (H1 & H2 & H3).
  - unfold cs_insert. cbn. case_decide; [done|]. apply NoDup_app. split_and!; [done|set_solver|].
    apply NoDup_singleton.
  - split_and!; [done|done|]. intros x. rewrite H3. unfold cs_insert. cbn. case_decide; set_solver.
Qed.

Lemma cellset_is_set i (v l : list Z) :
  let c := foldl cs_insert (cs_make i v) l in
  cs_id c = i ∧ NoDup (cs_cells c) ∧ ∀ x, x ∈ cs_cells c ↔ x ∈ v ∨ x ∈ l.
Proof.
  cbn. unfold cs_make. destruct (cs_inserts (cs_new i) v) as (H1 & H2 & H3); [constructor|].
  destruct (cs_inserts (foldl cs_insert (cs_new i) v) l H2) as (H4 & H5 & H6).
  split_and!; [by rewrite H4, H1|done|]. intros x. rewrite H6, H3. cbn. set_solver.
Qed.

(** ** CellSetID *)
Lemma csid_order :
  (∀ s, csid_to_string (csid_make s) = s) ∧
  (∀ a, csid_lt a a = false) ∧
  (∀ a b c, csid_lt a b = true → csid_lt b c = true → csid_lt a c = true) ∧
  (∀ s t, csid_lt (csid_make s) (csid_make t) = false ∧ csid_lt (csid_make t) (csid_make s) = false ↔ s = t).
Proof.
  split_and!.
  - done.
  - intros a. unfold csid_lt. change (String.compare a a) with (kcmp a a). by rewrite kcmp_refl.
  - intros a b c. unfold csid_lt. destruct (String.compare a b) eqn:E1; try done.
    destruct (String.compare b c) eqn:E2; try done. by rewrite (string_compare_trans a b c).
  - intros s t. unfold csid_lt, csid_make.
    pose proof (kcmp_eq s t) as He. pose proof (kcmp_anti s t) as Ha. unfold kcmp, string_key in *.
    rewrite Ha. destruct (String.compare s t); cbn in *; naive_solver.
Qed.

(** ** Solution *)
Global Instance cellset_id_eq : EqDecision cellset_id := String.string_dec.

Section sol.
Context {N : Num}.

(** The modifying calls on one Solution object. *)
Inductive sol_call :=
| CGlobal (t : list num)
| CTof (i : cellset_id) (x : cellset_values)
| CConc (i : cellset_id) (x : cellset_values).
Definition sol_apply (s : solution) (c : sol_call) : solution :=
  match c with
  | CGlobal t => sol_assign_global s t
  | CTof i x => sol_assign_tof s i x
  | CConc i x => sol_assign_conc s i x
  end.
(** The writes of each kind contained in a history. *)
Definition globals (h : list sol_call) := omap (λ c, match c with CGlobal t => Some t | _ => None end) h.
Definition tofs (h : list sol_call) :=
  omap (λ c, match c with CTof i x => Some (i, x) | _ => None end) h.
Definition concs (h : list sol_call) :=
  omap (λ c, match c with CConc i x => Some (i, x) | _ => None end) h.

Lemma omap_snoc {A B} (f : A → option B) l x :
  omap f (l ++ [x]) = omap f l ++ match f x with Some y => [y] | None => [] end.
Proof.
  induction l as [|y l IH]; cbn; [by destruct (f x)|]. destruct (f y); cbn; by rewrite IH.
Qed.

Lemma sol_values_set i j (x : cellset_values) m : om_wf m →
  sol_values j (om_set i x m) = if decide (i = j) then x else sol_values j m.
Proof.
  intros Hwf. unfold sol_values. rewrite om_find_set by done.
  destruct (decide (i = j)) as [->|Hne].
  - rewrite decide_True by apply kcmp_refl. done.
  - rewrite decide_False by (by rewrite kcmp_eq). done.
Qed.

Definition sol_inv (h : list sol_call) (s : solution) : Prop :=
  om_wf (so_ttof s) ∧ om_wf (so_conc s) ∧
  so_tof s = default [] (last (globals h)) ∧
  (∀ i, sol_tof s i = last_write [] (tofs h) i) ∧
  (∀ i, sol_concentration s i = last_write [] (concs h) i) ∧
  (∀ i, i ∈ map fst (so_conc s) ↔ i ∈ map fst (concs h)).

Lemma sol_history h : sol_inv h (foldl sol_apply sol_new h).
Proof.
  induction h as [|c h IH] using rev_ind.
  - unfold sol_inv. cbn. split_and!; try done; apply om_nil_wf.
  - rewrite foldl_app. cbn [foldl].
    destruct IH as (W1 & W2 & H1 & H2 & H3 & H4). unfold sol_inv, globals, tofs, concs in *.
    rewrite !omap_snoc. destruct c as [t|i x|i x]; cbn; rewrite ?app_nil_r; split_and!; try done.
    + by rewrite last_snoc.
    + by apply om_set_wf.
    + intros j. rewrite last_write_app. unfold sol_tof. cbn. rewrite sol_values_set by done.
      by rewrite <-H2.
    + by apply om_set_wf.
    + intros j. rewrite last_write_app. unfold sol_concentration. cbn. rewrite sol_values_set by done.
      by rewrite <-H3.
    + intros j. rewrite map_app, elem_of_app. cbn. unfold om_set. change (j ∈ map fst ?l) with (j ∈ map fst l).
      rewrite om_alter_keys, H4. set_solver.
Qed.

Lemma sol_start_points_spec h :
  let s := foldl sol_apply sol_new h in
  StronglySorted (λ a b, csid_lt a b = true) (sol_start_points s) ∧
  ∀ i, i ∈ sol_start_points s ↔ i ∈ map fst (concs h).
Proof.
  cbn. destruct (sol_history h) as (_ & W2 & _ & _ & _ & H4). split; [|done].
  unfold sol_start_points. clear H4. unfold om_wf in W2. revert W2.
  generalize (map fst (so_conc (foldl sol_apply sol_new h))). intros ? W2.
  induction W2 as [|x l Hl IH Hx]; constructor; [done|].
  eapply Forall_impl; [exact Hx|]. intros y Hy. unfold klt, kcmp, string_key in Hy. unfold csid_lt. by rewrite Hy.
Qed.

(** ** Handles refine values *)
(** Value semantics: every object simply holds its own Solution ([None] after a
    move). *)
Definition vs_upd (f : solution → solution) (w : list (option solution)) (o : nat) : option (list (option solution)) :=
  match w !! o with Some (Some s) => Some (<[o := Some (f s)]> w) | _ => None end.
Definition vs_step (w : list (option solution)) (op : solop) : option (list (option solution)) :=
  match op with
  | SNew => Some (w ++ [Some sol_new])
  | SCopy src => match w !! src with Some (Some s) => Some (w ++ [Some s]) | _ => None end
  | SMove src => match w !! src with Some q => Some (<[src := None]> w ++ [q]) | _ => None end
  | SAssignGlobal o t => vs_upd (λ s, sol_assign_global s t) w o
  | SAssignTof o i x => vs_upd (λ s, sol_assign_tof s i x) w o
  | SAssignConc o i x => vs_upd (λ s, sol_assign_conc s i x) w o
  end.
Fixpoint vs_run (w : list (option solution)) (ops : list solop) : option (list (option solution)) :=
  match ops with
  | [] => Some w
  | op :: ops' => match vs_step w op with Some w' => vs_run w' ops' | None => None end
  end.

(** What object [o] answers from. *)
Definition obj_value (w : solworld) (o : option nat) : option solution :=
  match o with Some a => w_heap w !! a | None => None end.
Definition abstract (w : solworld) : list (option solution) := map (obj_value w) (w_objs w).
Global Arguments abstract : simpl never.

(** Every non-null object owns its Impl alone. *)
Definition owned (w : solworld) : Prop :=
  (∀ o a, w_objs w !! o = Some (Some a) → (a < length (w_heap w))%nat) ∧
  (∀ o1 o2 a, w_objs w !! o1 = Some (Some a) → w_objs w !! o2 = Some (Some a) → o1 = o2).

Lemma abstract_lookup w o : abstract w !! o = obj_value w <$> (w_objs w !! o).
Proof. apply list_lookup_fmap. Qed.

Lemma sw_impl_abs w o : owned w →
  (∃ a s, sw_impl w o = Ok (a, s) ∧ w_objs w !! o = Some (Some a) ∧ w_heap w !! a = Some s ∧
     abstract w !! o = Some (Some s)) ∨
  (sw_impl w o = UB ∧ match abstract w !! o with Some (Some _) => False | _ => True end).
Proof.
  intros [H1 H2]. unfold sw_impl. rewrite abstract_lookup. destruct (w_objs w !! o) as [[a|]|] eqn:E; cbn.
  - destruct (lookup_lt_is_Some_2 (w_heap w) a (H1 _ _ E)) as [s Hs]. rewrite Hs.
    left. exists a, s. by split_and!.
  - by right.
  - by right.
Qed.

Lemma upd_refines f w o : owned w →
  match sw_update f w o, vs_upd f (abstract w) o with
  | Ok w', Some v' => owned w' ∧ abstract w' = v'
  | UB, None => True
  | _, _ => False
  end.
Proof.
  intros Hw. unfold sw_update, vs_upd.
  destruct (sw_impl_abs w o Hw) as [(a & s & -> & Ho & Ha & Habs)|[-> Habs]].
  - cbn. rewrite Habs. destruct Hw as [H1 H2]. split.
    + split; cbn; [|done]. intros o' a' Ho'. rewrite insert_length. eauto.
    + apply list_eq. intros o'. rewrite abstract_lookup. cbn.
      destruct (decide (o' = o)) as [->|Hne].
      * rewrite Ho. rewrite list_lookup_insert by (by eapply lookup_lt_Some).
        cbn. rewrite list_lookup_insert; [done|]. by eapply lookup_lt_Some.
      * rewrite list_lookup_insert_ne by done. rewrite abstract_lookup.
        destruct (w_objs w !! o') as [[a'|]|] eqn:Ho'; cbn; try done.
        rewrite list_lookup_insert_ne; [done|]. intros <-. by eapply Hne, H2.
  - cbn. by destruct (abstract w !! o) as [[?|]|].
Qed.

Lemma lookup_app_mono {A} (l1 l2 : list A) i x : l1 !! i = Some x → (l1 ++ l2) !! i = Some x.
Proof. intros. by apply lookup_app_l_Some. Qed.

Lemma abstract_push w q s : (∀ o a, w_objs w !! o = Some (Some a) → (a < length (w_heap w))%nat) →
  abstract (mkWorld (w_heap w ++ [s]) (w_objs w ++ [q])) =
  abstract w ++ [obj_value (mkWorld (w_heap w ++ [s]) []) q].
Proof.
  intros H1. unfold abstract. cbn. rewrite map_app. cbn. f_equal.
  apply map_ext_in. intros [a|] Hin; [|done]. cbn.
  apply elem_of_list_In, elem_of_list_lookup in Hin as [o Ho]. rewrite lookup_app_l; [done|eauto].
Qed.

Lemma owned_push w s : owned w →
  owned (mkWorld (w_heap w ++ [s]) (w_objs w ++ [Some (length (w_heap w))])).
Proof.
  intros [H1 H2]. split; cbn.
  - intros o a [[_ Ho]|[_ E]]%lookup_snoc_Some; rewrite app_length; cbn.
    + specialize (H1 _ _ Ho). lia.
    + injection E as <-. lia.
  - intros o1 o2 a [[_ Ho1]|[-> E1]]%lookup_snoc_Some [[_ Ho2]|[-> E2]]%lookup_snoc_Some; [eauto| | |done].
    + injection E2 as <-. specialize (H1 _ _ Ho1). lia.
    + injection E1 as <-. specialize (H1 _ _ Ho2). lia.
Qed.

Lemma step_refines w op : owned w →
  match sw_step w op, vs_step (abstract w) op with
  | Ok w', Some v' => owned w' ∧ abstract w' = v'
  | UB, None => True
  | _, _ => False
  end.
Proof.
  intros Hw. destruct op as [|src|src|o t|o i x|o i x]; cbn [sw_step vs_step];
    try (by apply upd_refines).
  - split; [by apply owned_push|]. rewrite abstract_push by apply Hw. cbn.
    by rewrite lookup_app_r, Nat.sub_diag.
  - destruct (sw_impl_abs w src Hw) as [(a & s & -> & Ho & Ha & Habs)|[-> Habs]].
    + cbn. rewrite Habs. split; [by apply owned_push|]. rewrite abstract_push by apply Hw. cbn.
      by rewrite lookup_app_r, Nat.sub_diag.
    + cbn. by destruct (abstract w !! src) as [[?|]|].
  - rewrite abstract_lookup. destruct (w_objs w !! src) as [q|] eqn:E; cbn; [|done].
    destruct Hw as [H1 H2]. pose proof (lookup_lt_Some _ _ _ E) as Hlt. split.
    + assert (∀ o a, <[src:=None]> (w_objs w) !! o = Some (Some a) → o ≠ src ∧ w_objs w !! o = Some (Some a)) as Hin.
      { intros o a Ho. destruct (decide (o = src)) as [->|Hne].
        - by rewrite list_lookup_insert in Ho.
        - by rewrite list_lookup_insert_ne in Ho. }
      split; cbn.
      * intros o a [[_ Ho]|[_ ->]]%lookup_snoc_Some; [apply Hin in Ho as []; eauto|eauto].
      * intros o1 o2 a [[_ Ho1]|[-> ->]]%lookup_snoc_Some [[_ Ho2]|[-> E2]]%lookup_snoc_Some; [| | |done].
        -- apply Hin in Ho1 as [], Ho2 as []. eauto.
        -- subst q. apply Hin in Ho1 as [Hne Ho1]. exfalso. eauto.
        -- apply Hin in Ho2 as [Hne Ho2]. exfalso. eauto.
    + unfold abstract. cbn. rewrite map_app. cbn. f_equal. rewrite list_fmap_insert. done.
Qed.

Lemma run_refines ops w : owned w →
  match sw_run w ops, vs_run (abstract w) ops with
  | Ok w', Some v' => owned w' ∧ abstract w' = v'
  | UB, None => True
  | _, _ => False
  end.
Proof.
  revert w. induction ops as [|op ops IH]; intros w Hw; cbn; [done|].
  pose proof (step_refines w op Hw) as Hs. destruct (sw_step w op) as [w'| | | |], (vs_step (abstract w) op) as [v'|]; try done.
  destruct Hs as [Hw' <-]. cbn. by apply IH.
Qed.

Lemma owned0 : owned world0.
Proof. split; cbn; intros *; rewrite ?lookup_nil; done. Qed.

Lemma frame_step ops w op w' : sw_run world0 ops = Ok w → sw_step w op = Ok w' →
  match op with
  | SNew => abstract w' = abstract w ++ [Some sol_new]
  | SCopy src => ∃ s, abstract w !! src = Some (Some s) ∧ abstract w' = abstract w ++ [Some s]
  | SMove src => ∃ q, abstract w !! src = Some q ∧ abstract w' = <[src := None]> (abstract w) ++ [q]
  | SAssignGlobal o _ | SAssignTof o _ _ | SAssignConc o _ _ =>
      length (abstract w') = length (abstract w) ∧
      ∀ o', o' ≠ o → abstract w' !! o' = abstract w !! o'
  end.
Proof.
  intros Hrun Hstep. pose proof (run_refines ops world0 owned0) as Hr. rewrite Hrun in Hr.
  destruct (vs_run (abstract world0) ops); [|done]. destruct Hr as [Hw _].
  pose proof (step_refines w op Hw) as Hs. rewrite Hstep in Hs.
  assert (∀ f o v, vs_upd f (abstract w) o = Some v →
    length v = length (abstract w) ∧ ∀ o', o' ≠ o → v !! o' = abstract w !! o') as Hupd.
  { intros f o v Hv. unfold vs_upd in Hv. destruct (abstract w !! o) as [[s|]|]; try done.
    injection Hv as <-. rewrite insert_length. split; [done|]. intros o' Hne. by rewrite list_lookup_insert_ne. }
  destruct op as [|src|src|o t|o i x|o i x]; cbn in Hs.
  - apply Hs.
  - destruct (abstract w !! src) as [[s|]|]; try done. destruct Hs. eauto.
  - destruct (abstract w !! src) as [q|]; try done. destruct Hs. eauto.
  - destruct (vs_upd _ _ o) eqn:E; [|done]. destruct Hs as [_ ->]. by apply Hupd in E.
  - destruct (vs_upd _ _ o) eqn:E; [|done]. destruct Hs as [_ ->]. by apply Hupd in E.
  - destruct (vs_upd _ _ o) eqn:E; [|done]. destruct Hs as [_ ->]. by apply Hupd in E.
Qed.
End sol.

(** ** RandomVector *)
Section rv.
Context {N : Num} (R : rng).

Lemma normal_len n d g l g' : normal_loop R n d g = (l, g') → length l = n.
Proof.
  revert d g l g'. induction n as [|n IH]; intros d g l g'; cbn; [by intros [= <- _]|].
  destruct (nd_draw R d g) as [[x d'] g1]. destruct (normal_loop R n d' g1) as [l1 g2] eqn:E.
  intros [= <- _]. cbn. f_equal. eauto.
Qed.
Lemma integer_len n lo hi g l g' : integer_loop R n lo hi g = (l, g') → length l = n.
Proof.
  revert g l g'. induction n as [|n IH]; intros g l g'; cbn; [by intros [= <- _]|].
  destruct (ui_draw R lo hi g) as [x g1]. destruct (integer_loop R n lo hi g1) as [l1 g2] eqn:E.
  intros [= <- _]. cbn. f_equal. eauto.
Qed.
Lemma integer_app n m lo hi g l1 g1 l2 g2 :
  integer_loop R n lo hi g = (l1, g1) → integer_loop R m lo hi g1 = (l2, g2) →
  integer_loop R (n + m) lo hi g = (l1 ++ l2, g2).
Proof.
  revert g l1. induction n as [|n IH]; intros g l1; cbn.
  - by intros [= <- <-] ->.
  - destruct (ui_draw R lo hi g) as [x g3]. destruct (integer_loop R n lo hi g3) as [l3 g4] eqn:E.
    intros [= <- <-] E2. by rewrite (IH g3 l3).
Qed.

Definition calls_to (o : nat) (ops : list rvw_op) : list rv_call :=
  omap (λ op, match op with WCall o' c => if decide (o' = o) then Some c else None | WNew => None end) ops.
Definition outputs_of (o : nat) (out : list (nat * (list num + list Z))) : list (list num + list Z) :=
  omap (λ x, if decide (x.1 = o) then Some x.2 else None) out.

Lemma rvw_existing w ops out o g : rvw_run R w ops = Ok out → w !! o = Some g →
  outputs_of o out = rv_run R g (calls_to o ops).
Proof.
  revert w out g. induction ops as [|op ops IH]; intros w out g; cbn.
  - by intros [= <-] _.
  - intros (r & Hr & Hout)%bind_Ok Ho. apply bind_Ok in Hout as (out' & Hout' & [= <-]).
    destruct op as [|o' c]; cbn in Hr.
    + injection Hr as <-. cbn in *. eapply IH; [done|]. by apply lookup_app_mono.
    + destruct (w !! o') as [g'|] eqn:E; [|done]. destruct (rv_step R g' c) as [x g1] eqn:Es.
      injection Hr as <-. cbn in *. case_decide as Hd; cbn.
      * subst o'. rewrite E in Ho. injection Ho as ->. rewrite Es. f_equal.
        eapply IH; [done|]. apply list_lookup_insert. by eapply lookup_lt_Some.
      * eapply IH; [done|]. by rewrite list_lookup_insert_ne.
Qed.

Lemma rvw_objects ops : ∀ w out o, rvw_run R w ops = Ok out → (length w ≤ o)%nat →
  outputs_of o out = rv_run R (rv_new R) (calls_to o ops).
Proof.
  induction ops as [|op ops IH]; intros w out o; cbn.
  - by intros [= <-] _.
  - intros (r & Hr & Hout)%bind_Ok Ho. apply bind_Ok in Hout as (out' & Hout' & [= <-]).
    destruct op as [|o' c]; cbn in Hr.
    + injection Hr as <-. cbn in *. destruct (decide (o = length w)) as [->|Hne].
      * eapply rvw_existing; [done|]. by rewrite lookup_app_r, Nat.sub_diag.
      * eapply IH; [done|]. rewrite app_length. cbn. lia.
    + destruct (w !! o') as [g'|] eqn:E; [|done]. destruct (rv_step R g' c) as [x g1] eqn:Es.
      injection Hr as <-. cbn in *. apply lookup_lt_Some in E. rewrite !decide_False by lia.
      eapply IH; [done|]. by rewrite insert_length.
Qed.

Lemma rvw_independent ops out o : rvw_run R [] ops = Ok out →
  outputs_of o out = rv_run R (rv_new R) (calls_to o ops).
Proof. intros. eapply rvw_objects; [done|cbn; lia]. Qed.

Lemma rvw_same_calls ops out o1 o2 : rvw_run R [] ops = Ok out →
  calls_to o1 ops = calls_to o2 ops → outputs_of o1 out = outputs_of o2 out.
Proof. intros E H. by rewrite !(rvw_independent ops out _ E), H. Qed.

Definition requested (c : rv_call) : nat := match c with RNormal n _ _ => n | RIndex n _ => n end.
Definition delivered (o : list num + list Z) : nat :=
  match o with inl l => length l | inr l => length l end.
Lemma rv_lengths g cs : map delivered (rv_run R g cs) = map requested cs.
Proof.
  revert g. induction cs as [|c cs IH]; intros g; cbn; [done|].
  destruct (rv_step R g c) as [o g'] eqn:E. cbn. rewrite IH. f_equal.
  destruct c as [n m sd|n m]; cbn in E.
  - destruct (rv_normal R n m sd g) as [l g1] eqn:E1. injection E as <- _. cbn. by eapply normal_len.
  - destruct (rv_index R n m g) as [l g1] eqn:E1. injection E as <- _. cbn. by eapply integer_len.
Qed.

Lemma rv_stream g a b m cs : ∃ l1 l2 rest,
  rv_run R g (RIndex a m :: RIndex b m :: cs) = inr l1 :: inr l2 :: rest ∧
  rv_run R g (RIndex (a + b) m :: cs) = inr (l1 ++ l2) :: rest.
Proof.
  cbn. unfold rv_index. destruct (integer_loop R a 0 m g) as [l1 g1] eqn:E1.
  destruct (integer_loop R b 0 m g1) as [l2 g2] eqn:E2. rewrite (integer_app _ _ _ _ _ _ _ _ _ E1 E2). eauto.
Qed.
End rv.
