(** C77: volumes and fluxes of pairs of wells of flows without cycles, computed
    with doubles, agree with those of exact arithmetic up to a bounded number of
    roundings. *)
From Coq Require Import ZArith Reals Lra Psatz QArith Qcanon Qreals String.
From Coq.Floats Require Import SpecFloat.
From Verif.Model Require Import Base Num OMap Containers Solution Toolbox DerivedQuantities.
From Verif.Spec Require Import ToolboxSpec MirrorSpec AcyclicSpec AccuracySpec.
From Verif.Proofs Require Import Util OMapFacts ExactNum OrdLaws B64Laws OppLaws TofLaws ToolboxThms Acyclic Rounding Duality Accuracy PairAccuracy.
From Verif.Props Require Import Toolbox SameFlow Accuracy.
Open Scope Z_scope.

(** What the theorems assume of a pair of wells [i] and [j], solved in both
    directions with doubles and with exact numbers: the flow has no cycles, the
    data are of ordinary size, and no exact concentration is below 2^-300. *)
Record solved_pair (p : @problem b64) (i j : cellset_id) (inj prod : @solution b64) (inj' prod' : @solution exact) : Prop := {
  sp_valid : valid p;
  sp_data : @data b64 b64_ok p;
  sp_acyclic : acyclic (net_arcs p);
  sp_ordinary : ordinary p;
  sp_runs : ∃ g f ev sets ev' sets', poses p g f ∧
    diagnose Injection ev g p f sets = Ok (OSol inj) ∧ i ∈ map cs_id sets ∧
    diagnose Production ev' g p f sets' = Ok (OSol prod) ∧ j ∈ map cs_id sets';
  sp_exact : ∃ g f ev sets ev' sets', poses (exactly p) g f ∧
    diagnose Injection ev g (exactly p) f sets = Ok (OSol inj') ∧ i ∈ map cs_id sets ∧
    diagnose Production ev' g (exactly p) f sets' = Ok (OSol prod') ∧ j ∈ map cs_id sets';
  sp_inj : ∀ v c, om_find v (sol_concentration inj' i) = Some c → nleb (Fin (pow2 (-300)) : @num exact) c = true;
  sp_prod : ∀ v c, om_find v (sol_concentration prod' j) = Some c → nleb (Fin (pow2 (-300)) : @num exact) c = true
}.

Lemma app_relative k lo hi x y : app k lo hi x y → Z.of_nat k ≤ 2 ^ 50 → off_by (errors k) (q_of x) y.
Proof.
  intros H Hk. apply close_relative; [done| |by eapply app_close]. destruct H as [[q ->] (_ & _ & H & _) _].
  rewrite exact_n0. cbn [nleb exact]. apply xleb_Fin. apply QR_le. by rewrite QR_0.
Qed.
(** Few enough errors for the error bounds to hold. *)
Lemma pair_size n C K : (1 ≤ n)%nat → (6 ≤ C)%nat → Z.of_nat (n * (C * (2 * n + 1))) ≤ 2 ^ 50 → (K ≤ n * C + n * C + n + 2)%nat → Z.of_nat K ≤ 2 ^ 50.
Proof.
  intros Hn HC Hs HK. assert (n * C + n * C + n + 2 ≤ n * (C * (2 * n + 1)))%nat; [|lia].
  assert (n * (C * (2 * n + 1)) = n * C + n * C * (2 * n))%nat as -> by ring. assert (n * C + n + 2 ≤ n * C * (2 * n))%nat; [|lia]. nia.
Qed.
Section size.
Context (p : @problem b64) (i j : cellset_id) (inj prod : @solution b64) (inj' prod' : @solution exact).
Notation n := (Z.to_nat (pb_cells p)).
Notation C := (all_costs p).
Context (SP : solved_pair p i j inj prod inj' prod') (HS : Z.of_nat (n * (C * (2 * n + 1))) ≤ 2 ^ 50).
Lemma pair_small K : (K ≤ n * C + n * C + n + 2)%nat → Z.of_nat K ≤ 2 ^ 50.
Proof. apply pair_size; [pose proof (va_cells _ (sp_valid _ _ _ _ _ _ _ SP)); lia|unfold all_costs; lia|done]. Qed.
Lemma pair_budgets : ∃ kci kti kcp ktp, budget Injection p kci kti ∧ budget Production p kcp ktp ∧ (∀ v, (kci v ≤ n * C)%nat) ∧ ∀ v, (kcp v ≤ n * C)%nat.
Proof.
  destruct SP as [Hp HD Hac OR (g & f & ev & sets & ev' & sets' & HP & H & _ & H' & _) _ _ _].
  destruct (rank_exists p Hp _ g f ev sets inj HP Hac H) as (rank & Hr & Hn). destruct (rank_exists p Hp _ g f ev' sets' prod HP Hac H') as (rank' & Hr' & Hn').
  do 4 eexists. split; [exact (rank_budget p _ rank n Hr Hn HS)|]. split; [exact (rank_budget p _ rank' n Hr' Hn' HS)|].
  split; intros v; apply Nat.mul_le_mono_r; [specialize (Hn v)|specialize (Hn' v)]; lia.
Qed.
End size.

(** The pair volumes. *)
Theorem C77_volume p i j inj prod inj' prod' : let n := Z.to_nat (pb_cells p) in let C := all_costs p in
  solved_pair p i j inj prod inj' prod' → Z.of_nat (n * (C * (2 * n + 1))) ≤ 2 ^ 50 →
  ∃ x y, pair_volume inj prod (pb_pv p) i j = Ok x ∧ pair_volume inj' prod' (pb_pv (exactly p)) i j = Ok y ∧
    off_by (errors (n * C + n * C + n + 2)) (q_of x) y.
Proof.
  intros n C SP HS. pose proof (pair_small _ _ _ _ _ _ _ SP HS) as HK. destruct (pair_budgets _ _ _ _ _ _ _ SP HS) as (kci & kti & kcp & ktp & BI & BP & Ki & Kp).
  destruct SP as [Hp HD Hac OR (g & f & ev & sets & ev' & sets' & HP & H1 & I1 & H2 & I2) (g' & f' & evx & setsx & evx' & setsx' & HP' & H3 & I3 & H4 & I4) Li Lp].
  destruct (volume_app p g f g' f' Hp HP HP' HD Hac OR _ _ kci kti kcp ktp BI BP Ki Kp (HK _ ltac:(reflexivity)) i j _ _ _ _ _ _ _ _ inj prod inj' prod'
    H1 H3 H2 H4 I1 I3 I2 I4 Li Lp) as (x & y & E & E' & HA).
  exists x, y. split; [done|]. split; [done|]. eapply app_relative; [exact HA|]. by apply HK.
Qed.
(** The pair fluxes: what the producer receives of the injector's rates, and what
    the injector delivers of the producer's, which are negative. *)
Theorem C77_fluxes p i j inj prod inj' prod' : let n := Z.to_nat (pb_cells p) in let C := all_costs p in
  solved_pair p i j inj prod inj' prod' → Z.of_nat (n * (C * (2 * n + 1))) ≤ 2 ^ 50 → data finite (exactly p) →
  is_Some (om_find i (pb_rates p)) → is_Some (om_find j (pb_rates p)) →
  ∃ x y x' y', pair_flux inj prod i j (pb_rates p) = Ok (x, y) ∧ pair_flux inj' prod' i j (pb_rates (exactly p)) = Ok (x', y') ∧
    off_by (errors (n * C + n + 1)) (q_of x) x' ∧ off_by (errors (n * C + n + 1)) (nopp (q_of y)) (nopp y').
Proof.
  intros n C SP HS HF Hi Hj. pose proof (pair_small _ _ _ _ _ _ _ SP HS) as HK. destruct (pair_budgets _ _ _ _ _ _ _ SP HS) as (kci & kti & kcp & ktp & BI & BP & Ki & Kp).
  destruct SP as [Hp HD Hac OR (g & f & ev & sets & ev' & sets' & HP & H1 & I1 & H2 & I2) (g' & f' & evx & setsx & evx' & setsx' & HP' & H3 & I3 & H4 & I4) Li Lp].
  destruct (flux_app_pair p g f g' f' Hp HP HP' HD Hac OR _ _ kci kti kcp ktp BI BP Ki Kp (HK _ ltac:(reflexivity)) i j _ _ _ _ _ _ _ _ inj prod inj' prod'
    H1 H3 H2 H4 I1 I3 I2 I4 Li Lp HF Hi Hj) as (x & y & x' & y' & E & E' & HA & z & HB & Ez).
  exists x, y, x', y'. split; [done|]. split; [done|]. split; [eapply app_relative; [exact HA|]; apply HK; lia|].
  rewrite <-Ez. eapply app_relative; [exact HB|]. apply HK. lia.
Qed.
(** If the flow conserves volume, the two fluxes of the pair add up to nothing
    but rounding errors. *)
Theorem C77_balance p i j inj prod inj' prod' : let n := Z.to_nat (pb_cells p) in let C := all_costs p in
  solved_pair p i j inj prod inj' prod' → Z.of_nat (n * (C * (2 * n + 1))) ≤ 2 ^ 50 → data finite (exactly p) → conserves (exactly p) →
  ∃ x y, pair_flux inj prod i j (pb_rates p) = Ok (x, y) ∧
    close (n * C + n + 1 + (n * C + n + 1)) (q_of x) (nopp (q_of y)).
Proof.
  intros n C SP HS HF HC. pose proof (pair_small _ _ _ _ _ _ _ SP HS) as HK. destruct (pair_budgets _ _ _ _ _ _ _ SP HS) as (kci & kti & kcp & ktp & BI & BP & Ki & Kp).
  destruct SP as [Hp HD Hac OR (g & f & ev & sets & ev' & sets' & HP & H1 & I1 & H2 & I2) (g' & f' & evx & setsx & evx' & setsx' & HP' & H3 & I3 & H4 & I4) Li Lp].
  destruct (pair_acyclic (exactly p) g' f' (Accuracy.ex_valid p Hp) HP' HF (ex_pores_ok p OR) _ _ _ _ _ _ i j (ex_net_acyclic p Hac OR) HC H3 H4 I3 I4) as [q Eq].
  assert (is_Some (om_find i (pb_rates p)) ∧ is_Some (om_find j (pb_rates p))) as [Hi Hj].
  { clear - Eq. unfold pair_flux in Eq. rewrite (rates_q p i), (rates_q p j) in Eq.
    destruct (om_find i (pb_rates p)); [|discriminate Eq]. destruct (om_find j (pb_rates p)); [|discriminate Eq]. by split; eexists. }
  destruct (flux_app_pair p g f g' f' Hp HP HP' HD Hac OR _ _ kci kti kcp ktp BI BP Ki Kp (HK _ ltac:(reflexivity)) i j _ _ _ _ _ _ _ _ inj prod inj' prod'
    H1 H3 H2 H4 I1 I3 I2 I4 Li Lp HF Hi Hj) as (x & y & x' & y' & E & E' & HA & z & HB & Ez).
  exists x, y. split; [done|]. rewrite Eq in E'. injection E' as <- <-. rewrite <-Ez.
  destruct (app_close _ _ _ _ _ HA) as (a & b & Ea & [= <-] & Hab). destruct (app_close _ _ _ _ _ HB) as (a' & b' & Ea' & Eb' & Hab').
  cbn [nopp exact xopp] in Eb'. injection Eb' as <-. rewrite Qcopp_involutive in Hab'. exists a, a'. split; [done|]. split; [done|].
  apply within_rel. apply within_rel in Hab. apply within_rel in Hab'. eapply rel_trans; [exact Hab|]. by apply rel_sym.
Qed.

(** ** Example: the wells I1 and P of the five-cell problem *)
Definition ex_psets := [cs_new "P"%string].
Definition isOSol {N : Num} (r : res tb_obs) : option solution := match r with Ok (OSol sol) => Some sol | _ => None end.
Lemma isOSol_eq {N : Num} r sol : isOSol r = Some sol → r = Ok (OSol sol).
Proof. destruct r as [[]| | | |]; cbn; congruence. Qed.
Example C77_runs :
  match isOSol (@ex_run b64 Injection ex_sets), isOSol (@ex_run b64 Production ex_psets),
        isOSol (ex_run_exactly Injection ex_sets), isOSol (ex_run_exactly Production ex_psets) with
  | Some inj, Some prod, Some inj', Some prod' =>
      large (sol_concentration inj' "I1"%string) && large (sol_concentration prod' "P"%string) &&
      match pair_volume inj prod (pb_pv ex_p) "I1"%string "P"%string, pair_volume inj' prod' (pb_pv ex_exactly) "I1"%string "P"%string with
      | Ok x, Ok y => negb (neqb (q_of x) y) | _, _ => false
      end
  | _, _, _, _ => false
  end = true.
Proof. vm_compute. reflexivity. Qed.
(** The pair volume of the doubles is not the exact one.  The theorems apply. *)
Lemma ex_pair inj prod inj' prod' : @ex_run b64 Injection ex_sets = Ok (OSol inj) → @ex_run b64 Production ex_psets = Ok (OSol prod) →
  ex_run_exactly Injection ex_sets = Ok (OSol inj') → ex_run_exactly Production ex_psets = Ok (OSol prod') →
  solved_pair (@ex_p b64) "I1"%string "P"%string inj prod inj' prod'.
Proof.
  intros H1 H2 H3 H4. pose proof C77_runs as HR. rewrite H1, H2, H3, H4 in HR. cbn [isOSol] in HR.
  apply andb_prop in HR as [HR _]. apply andb_prop in HR as [L1 L2]. split.
  - exact ex_valid.
  - exact (data_impl _ _ _ int_b64 ex_int).
  - exact ex_acyclic_b64.
  - exact ex_ordinary.
  - do 6 eexists. split; [exact ex_poses|]. split; [exact H1|]. split; [left|]. split; [exact H2|left].
  - do 6 eexists. split; [exact ex_poses_exactly|]. split; [exact H3|]. split; [left|]. split; [exact H4|left].
  - intros v c E. by eapply large_find; [exact L1|].
  - intros v c E. by eapply large_find; [exact L2|].
Qed.
Definition isfin (x : @num exact) : bool := match x with Fin _ => true | _ => false end.
Lemma isfin_finite x : isfin x = true → finite x.
Proof. destruct x as [q| | |]; [by exists q|done..]. Qed.
Lemma forallb_elem {A} (P : A → bool) l x : forallb P l = true → x ∈ l → P x = true.
Proof. intros H Hx. rewrite forallb_forall in H. apply H. by apply elem_of_list_In. Qed.
Example ex_finite : data finite ex_exactly.
Proof.
  split.
  - intros x w Hx Hw. apply isfin_finite. assert (forallb (λ x : Z * Z * list (@num exact), forallb isfin x.2) (pb_conns ex_exactly) = true) as H by (vm_compute; reflexivity).
    exact (forallb_elem _ _ _ (forallb_elem _ _ _ H Hx) Hw).
  - intros e k He Hk. apply isfin_finite.
    assert (forallb (λ e : cellset_id * @cellset_values exact, forallb (λ k : Z * @num exact, isfin k.2) e.2) (pb_rates ex_exactly) = true) as H by (vm_compute; reflexivity).
    exact (forallb_elem _ _ _ (forallb_elem _ _ _ H He) Hk).
  - intros x Hx. apply isfin_finite. assert (forallb isfin (pb_pv ex_exactly) = true) as H by (vm_compute; reflexivity). exact (forallb_elem _ _ _ H Hx).
Qed.
Example ex_conserves_exactly : conserves ex_exactly.
Proof. intros v Hv. cbn in Hv. apply xeqb_eq. assert (v = 0 ∨ v = 1 ∨ v = 2 ∨ v = 3 ∨ v = 4) as [->|[->|[->|[->| ->]]]] by lia; vm_compute; reflexivity. Qed.
Example C77_ex inj prod inj' prod' : @ex_run b64 Injection ex_sets = Ok (OSol inj) → @ex_run b64 Production ex_psets = Ok (OSol prod) →
  ex_run_exactly Injection ex_sets = Ok (OSol inj') → ex_run_exactly Production ex_psets = Ok (OSol prod') →
  (∃ x y, pair_volume inj prod (pb_pv ex_p) "I1"%string "P"%string = Ok x ∧ pair_volume inj' prod' (pb_pv ex_exactly) "I1"%string "P"%string = Ok y ∧
    off_by (errors 287) (q_of x) y) ∧
  (∃ x y, pair_flux inj prod "I1"%string "P"%string (pb_rates ex_p) = Ok (x, y) ∧ close 292 (q_of x) (nopp (q_of y))).
Proof.
  intros H1 H2 H3 H4. pose proof (ex_pair _ _ _ _ H1 H2 H3 H4) as SP. split.
  - exact (C77_volume (@ex_p b64) _ _ _ _ _ _ SP ltac:(vm_compute; discriminate)).
  - exact (C77_balance (@ex_p b64) _ _ _ _ _ _ SP ltac:(vm_compute; discriminate) ex_finite ex_conserves_exactly).
Qed.

Print Assumptions C77_volume.
Print Assumptions C77_fluxes.
Print Assumptions C77_balance.
