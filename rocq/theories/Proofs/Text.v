(** Numbers and matrices written as text can be read back. *)
From Coq Require Import Ascii QArith Qabs Qpower Lqa Lia.
From Coq.Floats Require Import SpecFloat.
From Verif.Model Require Import Base Num AssembledConnections Text.
From Verif.Spec Require Import GraphSpec TextSpec.
From Verif.Proofs Require Import OrdLaws B64Laws Util AConn GraphProps.
Open Scope Z_scope.

(** ** Digits *)
Lemma digit_digit d : 0 ≤ d < 10 → digit_of (digit d) = Some d.
Proof.
  intros Hd. assert (d = 0 ∨ d = 1 ∨ d = 2 ∨ d = 3 ∨ d = 4 ∨ d = 5 ∨ d = 6 ∨ d = 7 ∨ d = 8 ∨ d = 9) as H by lia.
  destruct_or! H; subst; reflexivity.
Qed.
Lemma read_digits_app acc t t' : read_digits acc (t ++ t') = match read_digits acc t with Some a => read_digits a t' | None => None end.
Proof. revert acc. induction t as [|c t IH]; intros acc; cbn; [done|]. destruct (digit_of c); [apply IH|done]. Qed.

Lemma put_digits_fuel f f' z : 0 ≤ z < 2 ^ Z.of_nat f → 0 ≤ z < 2 ^ Z.of_nat f' → (0 < f)%nat → (0 < f')%nat → put_digits f z = put_digits f' z.
Proof.
  revert f' z. induction f as [|f IH]; intros [|f'] z H1 H2 Hf Hf'; try lia. cbn [put_digits].
  destruct (Z.ltb_spec z 10) as [Hz|Hz]; [done|]. f_equal.
  assert (∀ g, 0 ≤ z < 2 ^ Z.of_nat (S g) → (0 < g)%nat ∧ 0 ≤ z / 10 < 2 ^ Z.of_nat g) as Hg.
  { intros g Hg. rewrite Nat2Z.inj_succ, Z.pow_succ_r in Hg by lia. split.
    - destruct g; [cbn in Hg; lia|lia].
    - split; [apply Z.div_pos; lia|]. apply Z.div_lt_upper_bound; lia. }
  destruct (Hg f H1), (Hg f' H2). by apply IH.
Qed.
Lemma log2_bound z : 0 ≤ z → 0 ≤ z < 2 ^ Z.of_nat (S (Z.to_nat (Z.log2 z))).
Proof.
  intros Hz. split; [done|]. pose proof (Z.log2_nonneg z). rewrite Nat2Z.inj_succ, Z2Nat.id by done.
  destruct (decide (z = 0)) as [->|]; [done|]. apply Z.log2_spec. lia.
Qed.
Lemma put_nat_eq z : 0 ≤ z → put_nat z = if z <? 10 then [digit z] else put_nat (z / 10) ++ [digit (z mod 10)].
Proof.
  intros Hz. unfold put_nat at 1. cbn [put_digits]. destruct (Z.ltb_spec z 10) as [|Hge]; [done|]. f_equal.
  assert (0 ≤ z / 10) as Hd by (apply Z.div_pos; lia). unfold put_nat.
  pose proof (log2_bound z Hz) as H1. pose proof (log2_bound _ Hd) as H2.
  rewrite Nat2Z.inj_succ, Z.pow_succ_r in H1 by lia.
  assert (0 < Z.log2 z) by (apply Z.log2_pos; lia).
  apply put_digits_fuel; [|done|lia|lia]. split; [done|]. apply Z.div_lt_upper_bound; lia.
Qed.

(** A number and its digits. *)
Lemma nat_ind10 (P : Z → Prop) : (∀ z, 0 ≤ z < 10 → P z) → (∀ z, 10 ≤ z → P (z / 10) → P z) → ∀ z, 0 ≤ z → P z.
Proof.
  intros H1 H2. apply (Zlt_0_ind P). intros z IH Hz. destruct (decide (z < 10)); [apply H1; lia|].
  apply H2; [lia|]. apply IH. split; [apply Z.div_pos; lia|apply Z.div_lt; lia].
Qed.
Definition is_digit (c : ascii) : Prop := is_Some (digit_of c).
Lemma put_nat_facts z : 0 ≤ z →
  read_digits 0 (put_nat z) = Some z ∧ Forall is_digit (put_nat z) ∧ put_nat z ≠ [].
Proof.
  revert z. apply nat_ind10.
  - intros z Hz. rewrite put_nat_eq by lia. rewrite (proj2 (Z.ltb_lt _ _)) by lia. cbn [read_digits].
    rewrite digit_digit by lia. split_and!; [f_equal; lia| |done]. apply Forall_singleton. unfold is_digit. by rewrite digit_digit by lia.
  - intros z Hz (H1 & H2 & H3). rewrite put_nat_eq by lia. rewrite (proj2 (Z.ltb_ge _ _)) by lia.
    pose proof (Z.mod_pos_bound z 10 ltac:(lia)). split_and!.
    + rewrite read_digits_app, H1. cbn [read_digits]. rewrite digit_digit by lia. f_equal. pose proof (Z.div_mod z 10 ltac:(lia)). lia.
    + apply Forall_app. split; [done|]. apply Forall_singleton. unfold is_digit. by rewrite digit_digit by lia.
    + by destruct (put_nat (z / 10)).
Qed.
Lemma read_put_nat z : 0 ≤ z → read_nat (put_nat z) = Some z.
Proof. intros Hz. destruct (put_nat_facts z Hz) as (H1 & _ & H3). unfold read_nat. by destruct (put_nat z). Qed.
Lemma put_nat_len z : 0 < z → 0 < zlen (put_nat z) ∧ 10 ^ (zlen (put_nat z) - 1) ≤ z < 10 ^ zlen (put_nat z).
Proof.
  intros Hz. cut (0 ≤ z → 0 < z → 0 < zlen (put_nat z) ∧ 10 ^ (zlen (put_nat z) - 1) ≤ z < 10 ^ zlen (put_nat z)); [intros H; apply H; lia|].
  clear Hz. revert z. apply (nat_ind10 (λ z, 0 < z → 0 < zlen (put_nat z) ∧ 10 ^ (zlen (put_nat z) - 1) ≤ z < 10 ^ zlen (put_nat z))).
  - intros z Hz Hp. rewrite put_nat_eq by lia. rewrite (proj2 (Z.ltb_lt _ _)) by lia. change (zlen [digit z]) with 1. change (10 ^ (1 - 1)) with 1. change (10 ^ 1) with 10. lia.
  - intros z Hz IH _. rewrite put_nat_eq by lia. rewrite (proj2 (Z.ltb_ge _ _)) by lia.
    assert (0 < z / 10) as Hd by (apply Z.div_str_pos; lia). destruct (IH Hd) as (H1 & H2 & H3).
    assert (zlen (put_nat (z / 10) ++ [digit (z mod 10)]) = zlen (put_nat (z / 10)) + 1) as ->.
    { unfold zlen. rewrite app_length. cbn. lia. }
    pose proof (Z.div_mod z 10 ltac:(lia)). pose proof (Z.mod_pos_bound z 10 ltac:(lia)).
    replace (zlen (put_nat (z / 10)) + 1 - 1) with (Z.succ (zlen (put_nat (z / 10)) - 1)) by lia.
    rewrite Z.pow_succ_r, Z.pow_add_r by lia. lia.
Qed.
Lemma put_nat_len_of z k : 0 ≤ k → 10 ^ k ≤ z < 10 ^ (k + 1) → zlen (put_nat z) = k + 1.
Proof.
  intros Hk [H1 H2]. assert (0 < z) as Hz. { pose proof (Z.pow_pos_nonneg 10 k). lia. }
  destruct (put_nat_len z Hz) as (L0 & L1 & L2). 
  assert (k < zlen (put_nat z)). { apply (Z.pow_lt_mono_r_iff 10); lia. }
  assert (zlen (put_nat z) - 1 < k + 1). { apply (Z.pow_lt_mono_r_iff 10); lia. }
  lia.
Qed.
Lemma put_int_facts z : read_int (put_int z) = Some z ∧ Forall (λ c, is_digit c ∨ c = "-"%char) (put_int z).
Proof.
  unfold put_int. destruct (Z.ltb_spec z 0) as [Hz|Hz].
  - cbn [read_int]. destruct (ascii_dec "-" "-"); [|done]. rewrite read_put_nat by lia. cbn. split; [f_equal; lia|].
    constructor; [by right|]. eapply Forall_impl; [apply put_nat_facts; lia|]. by left.
  - destruct (put_nat_facts z Hz) as (H1 & H2 & H3). split.
    + rewrite <-(read_put_nat z Hz). destruct (put_nat z) as [|c t]; [done|]. unfold read_int.
      apply Forall_cons in H2 as [[d Hd] _]. destruct (ascii_dec c "-") as [->|]; [done|]. by destruct (ascii_dec c "+") as [->|].
    + eapply Forall_impl; [done|]. by left.
Qed.

(** ** Rounding to decimals *)
Lemma div_even_near a b : 0 < b → 2 * Z.abs (div_even a b * b - a) ≤ b ∧ (∀ k, k * b ≤ a → k ≤ div_even a b) ∧ (∀ k, a ≤ k * b → div_even a b ≤ k).
Proof.
  intros Hb. unfold div_even. pose proof (Z.div_mod a b ltac:(lia)) as E. pose proof (Z.mod_pos_bound a b Hb) as Hr.
  set (q := a / b) in *. set (r := a mod b) in *. clearbody q r.
  assert (∀ k, k * b ≤ a → k ≤ q) as Hlo. { intros k Hk. nia. }
  assert (∀ k, a ≤ k * b → q ≤ k ∧ (r ≠ 0 → q + 1 ≤ k)) as Hup. { intros k Hk. split; [nia|]. intros. nia. }
  destruct (Z.ltb_spec (2 * r) b) as [H1|H1].
  { split_and!; [nia|done|]. intros k Hk. by apply Hup. }
  assert (r ≠ 0) by lia.
  destruct (Z.ltb_spec b (2 * r)) as [H2|H2].
  { split_and!; [nia| |]. { intros k Hk%Hlo. lia. } intros k Hk. by apply Hup. }
  destruct (Z.even q).
  - split_and!; [nia|done|]. intros k Hk. by apply Hup.
  - split_and!; [nia| |]. { intros k Hk%Hlo. lia. } intros k Hk. by apply Hup.
Qed.

(** 10^d * b against a, without fractions. *)
Definition p10 (d : Z) : Q := (inject_Z 10 ^ d)%Q.
Lemma p10_pos d : (0 < p10 d)%Q.
Proof. apply Qpower_0_lt. reflexivity. Qed.
Lemma p10_Z d : 0 ≤ d → (p10 d == inject_Z (10 ^ d))%Q.
Proof. intros Hd. unfold p10. by rewrite Zpower_Qpower. Qed.
Lemma p10_add d e : (p10 (d + e) == p10 d * p10 e)%Q.
Proof. apply Qpower_plus. discriminate. Qed.
Lemma p10_opp d : (p10 (- d) * p10 d == 1)%Q.
Proof. rewrite <-p10_add. replace (- d + d) with 0 by lia. reflexivity. Qed.
Lemma inj_le a b : a ≤ b ↔ (inject_Z a <= inject_Z b)%Q.
Proof. by rewrite Zle_Qle. Qed.
Lemma inj_lt a b : a < b ↔ (inject_Z a < inject_Z b)%Q.
Proof. by rewrite Zlt_Qlt. Qed.

Lemma inj_abs z : inject_Z (Z.abs z) = Qabs (inject_Z z).
Proof. reflexivity. Qed.

Lemma pow10_le_spec d a b : pow10_le d a b = true ↔ (p10 d * inject_Z b <= inject_Z a)%Q.
Proof.
  unfold pow10_le. destruct (Z.leb_spec 0 d) as [Hd|Hd]; rewrite Z.leb_le, inj_le.
  - rewrite inject_Z_mult, <-p10_Z by done. done.
  - rewrite inject_Z_mult, <-p10_Z by lia. pose proof (p10_pos d) as Hp. pose proof (p10_pos (- d)) as Hp'. pose proof (p10_opp d) as E.
    set (u := p10 d) in *. set (w := p10 (- d)) in *. clearbody u w. split; intros H.
    + apply (Qmult_le_l _ _ u) in H; [|done]. assert (u * (inject_Z a * w) == inject_Z a)%Q as E' by (rewrite <-(Qmult_1_r (inject_Z a)) at 2; rewrite <-E; ring).
      by rewrite E' in H.
    + apply (Qmult_le_l _ _ w) in H; [|done]. assert (w * (u * inject_Z b) == inject_Z b)%Q as E' by (rewrite <-(Qmult_1_r (inject_Z b)) at 2; rewrite <-E; ring).
      rewrite E' in H. rewrite Qmult_comm. done.
Qed.

Lemma p10_mono d e : d ≤ e → (p10 d <= p10 e)%Q.
Proof. intros H. apply Qpower_le_compat_l; [done|discriminate]. Qed.

Lemma dec_exp_spec a b : 0 < a → 0 < b →
  (p10 (dec_exp a b) * inject_Z b <= inject_Z a)%Q ∧ (inject_Z a < p10 (dec_exp a b + 1) * inject_Z b)%Q.
Proof.
  intros Ha Hb. unfold dec_exp. destruct (put_nat_len a Ha) as (A0 & A1 & A2). destruct (put_nat_len b Hb) as (B0 & B1 & B2).
  set (la := zlen (put_nat a)) in *. set (lb := zlen (put_nat b)) in *. clearbody la lb.
  assert (inject_Z a < p10 (la - lb + 1) * inject_Z b)%Q as Hup.
  { apply inj_lt in A2. apply inj_le in B1. rewrite <-p10_Z in A2, B1 by lia.
    eapply Qlt_le_trans; [exact A2|]. replace la with ((la - lb + 1) + (lb - 1)) at 1 by lia. rewrite p10_add.
    apply Qmult_le_l; [apply p10_pos|done]. }
  assert (p10 (la - lb - 1) * inject_Z b <= inject_Z a)%Q as Hlo.
  { apply inj_le in A1. apply inj_lt in B2. rewrite <-p10_Z in A1, B2 by lia. apply Qlt_le_weak.
    eapply Qlt_le_trans; [|exact A1]. replace (la - 1) with ((la - lb - 1) + lb) by lia. rewrite p10_add.
    apply Qmult_lt_l; [apply p10_pos|done]. }
  destruct (pow10_le (la - lb) a b) eqn:E.
  - apply pow10_le_spec in E. done.
  - split; [done|]. replace (la - lb - 1 + 1) with (la - lb) by lia. apply Qnot_le_lt. intros H. apply pow10_le_spec in H. congruence.
Qed.

(** The rounded number has [P + 1] digits and is off by at most half a unit of the last. *)
Lemma sci_round_spec P a b q d : 0 ≤ P → 0 < a → 0 < b → sci_round P a b = (q, d) →
  10 ^ P ≤ q < 10 ^ (P + 1) ∧
  ∃ u, (u == p10 (dec_exp a b - P))%Q ∧
  (2 * Qabs (inject_Z q * p10 (d - P) * inject_Z b - inject_Z a) <= u * inject_Z b)%Q.
Proof.
  intros HP Ha Hb. unfold sci_round. destruct (dec_exp_spec a b Ha Hb) as [H1 H2]. set (e := dec_exp a b) in *. clearbody e.
  set (q0 := if e <=? P then _ else _).
  assert (10 ^ P ≤ q0 ∧ q0 ≤ 10 ^ (P + 1) ∧ (2 * Qabs (inject_Z q0 * p10 (e - P) * inject_Z b - inject_Z a) <= p10 (e - P) * inject_Z b)%Q) as (L1 & L2 & L3).
  { assert (∀ A B s, 0 < B → (0 < s)%Q → (inject_Z A == s * inject_Z a)%Q → (inject_Z B == s * p10 (e - P) * inject_Z b)%Q →
      10 ^ P ≤ div_even A B ∧ div_even A B ≤ 10 ^ (P + 1) ∧
      (2 * Qabs (inject_Z (div_even A B) * p10 (e - P) * inject_Z b - inject_Z a) <= p10 (e - P) * inject_Z b)%Q) as Hgen.
    { intros A B s HB Hs EA EB. destruct (div_even_near A B HB) as (D1 & D2 & D3). split_and!.
      - apply D2. apply inj_le. rewrite inject_Z_mult, EA, EB, <-p10_Z by done.
        assert (p10 P * (s * p10 (e - P) * inject_Z b) == s * (p10 e * inject_Z b))%Q as ->.
        { assert (p10 e == p10 P * p10 (e - P))%Q as -> by (rewrite <-p10_add; by replace (P + (e - P)) with e by lia). ring. }
        by apply Qmult_le_l.
      - apply D3. apply inj_le. rewrite inject_Z_mult, EA, EB, <-p10_Z by lia.
        assert (p10 (P + 1) * (s * p10 (e - P) * inject_Z b) == s * (p10 (e + 1) * inject_Z b))%Q as ->.
        { assert (p10 (e + 1) == p10 (P + 1) * p10 (e - P))%Q as -> by (rewrite <-p10_add; by replace (P + 1 + (e - P)) with (e + 1) by lia). ring. }
        apply Qmult_le_l; [done|]. by apply Qlt_le_weak.
      - apply inj_le in D1. rewrite inject_Z_mult, inj_abs in D1. unfold Zminus in D1. rewrite inject_Z_plus, inject_Z_opp, inject_Z_mult, EA, EB in D1.
        apply (Qmult_le_l _ _ s); [done|].
        assert (s * (2 * Qabs (inject_Z (div_even A B) * p10 (e - P) * inject_Z b - inject_Z a)) ==
          inject_Z 2 * Qabs (inject_Z (div_even A B) * (s * p10 (e - P) * inject_Z b) + - (s * inject_Z a)))%Q as ->.
        { assert (inject_Z (div_even A B) * (s * p10 (e - P) * inject_Z b) + - (s * inject_Z a) == s * (inject_Z (div_even A B) * p10 (e - P) * inject_Z b - inject_Z a))%Q as -> by ring.
          rewrite Qabs_Qmult, (Qabs_pos s) by (by apply Qlt_le_weak). change (inject_Z 2) with 2%Q. ring. }
        eapply Qle_trans; [exact D1|]. assert (s * p10 (e - P) * inject_Z b == s * (p10 (e - P) * inject_Z b))%Q as -> by ring. apply Qle_refl. }
    subst q0. destruct (Z.leb_spec e P) as [He|He].
    - apply (Hgen _ _ (p10 (P - e))); [done|apply p10_pos| |].
      + rewrite inject_Z_mult, <-p10_Z by lia. ring.
      + rewrite <-p10_add. replace (P - e + (e - P)) with 0 by lia. change (p10 0) with 1%Q. ring.
    - apply (Hgen _ _ 1%Q); [|done| |].
      + pose proof (Z.pow_pos_nonneg 10 (e - P)). lia.
      + ring.
      + rewrite inject_Z_mult, <-p10_Z by lia. ring. }
  clearbody q0. clear H1 H2. destruct (Z.leb_spec (10 ^ (P + 1)) q0) as [Hq|Hq]; intros [= <- <-].
  - assert (q0 = 10 ^ (P + 1)) as -> by lia. split.
    { rewrite Z.pow_add_r by lia. pose proof (Z.pow_pos_nonneg 10 P). lia. }
    exists (p10 (e - P)). split; [done|]. assert (inject_Z (10 ^ P) * p10 (e + 1 - P) == inject_Z (10 ^ (P + 1)) * p10 (e - P))%Q as ->; [|done].
    rewrite <-!p10_Z, <-!p10_add by lia. by replace (P + (e + 1 - P)) with (P + 1 + (e - P)) by lia.
  - split; [lia|]. exists (p10 (e - P)). done.
Qed.

(** ** Doubles *)
Lemma digits2_pos_log2 m : Zpos (digits2_pos m) = Z.log2 (Zpos m) + 1.
Proof. induction m as [m IH|m IH|]; cbn [digits2_pos]; [| |done]; rewrite Pos2Z.inj_succ, IH; [rewrite Pos2Z.inj_xI, Z.log2_succ_double by lia|rewrite Pos2Z.inj_xO, Z.log2_double by lia]; lia. Qed.
Lemma valid_finite s m e : valid64 (S754_finite s m e) → Zpos m < 2 ^ 53 ∧ -1074 ≤ e ∧ (2 ^ 52 ≤ Zpos m ∨ e = -1074).
Proof.
  unfold valid64. cbn [valid_binary]. unfold bounded, canonical_mantissa, fexp, SpecFloat.emin. intros H.
  apply andb_prop in H as [H _]. apply Zeq_bool_eq in H. rewrite digits2_pos_log2 in H.
  destruct (Z.log2_spec (Zpos m) ltac:(lia)) as [L1 L2]. split_and!; [| lia |].
  - eapply Z.lt_le_trans; [exact L2|]. apply Z.pow_le_mono_r; lia.
  - destruct (decide (e = -1074)); [by right|]. left. etransitivity; [|exact L1]. apply Z.pow_le_mono_r; lia.
Qed.

Definition p2 (e : Z) : Q := (inject_Z 2 ^ e)%Q.
Lemma p2_pos e : (0 < p2 e)%Q.
Proof. apply Qpower_0_lt. reflexivity. Qed.
Lemma p2_Z e : 0 ≤ e → (p2 e == inject_Z (2 ^ e))%Q.
Proof. intros He. unfold p2. by rewrite Zpower_Qpower. Qed.
Lemma p2_add d e : (p2 (d + e) == p2 d * p2 e)%Q.
Proof. apply Qpower_plus. discriminate. Qed.
Lemma p2_split d e : (p2 e == p2 (e - d) * p2 d)%Q.
Proof. rewrite <-p2_add. by replace (e - d + d) with e by lia. Qed.

(** Two doubles differ by more than 10^-16 of either. *)
Lemma gap_pos m e n f : 0 < m → m < 2 ^ 53 → (2 ^ 52 ≤ m ∨ e = -1074) → n < 2 ^ 53 → -1074 ≤ f →
  ¬ (inject_Z n * p2 f == inject_Z m * p2 e)%Q →
  (inject_Z m * p2 e < inject_Z (10 ^ 16) * Qabs (inject_Z n * p2 f - inject_Z m * p2 e))%Q.
Proof.
  intros Hm1 Hm2 Hm3 Hn Hf Hne.
  assert (∀ A B g, A < 10 ^ 16 * Z.abs (B - A) → (inject_Z A * p2 g < inject_Z (10 ^ 16) * Qabs (inject_Z B * p2 g - inject_Z A * p2 g))%Q) as Hgen.
  { intros A B g H. apply inj_lt in H. rewrite inject_Z_mult, inj_abs in H. unfold Zminus in H. rewrite inject_Z_plus, inject_Z_opp in H.
    assert (inject_Z B * p2 g - inject_Z A * p2 g == (inject_Z B + - inject_Z A) * p2 g)%Q as -> by ring.
    rewrite Qabs_Qmult, (Qabs_pos (p2 g)) by (apply Qlt_le_weak, p2_pos).
    rewrite Qmult_assoc. apply Qmult_lt_compat_r; [apply p2_pos|done]. }
  destruct (Z_le_gt_dec e f) as [He|He].
  - assert (inject_Z n * p2 f == inject_Z (n * 2 ^ (f - e)) * p2 e)%Q as E.
    { rewrite inject_Z_mult, <-p2_Z, (p2_split e f) by lia. ring. }
    rewrite E in *. apply Hgen. assert (n * 2 ^ (f - e) ≠ m). { intros E'. apply Hne. by rewrite E'. }
    change (10 ^ 16) with 10000000000000000. change (2 ^ 53) with 9007199254740992 in *. lia.
  - assert (inject_Z m * p2 e == inject_Z (m * 2 ^ (e - f)) * p2 f)%Q as E.
    { rewrite inject_Z_mult, <-p2_Z, (p2_split f e) by lia. ring. }
    rewrite E in *. apply Hgen. assert (2 ^ 52 ≤ m) by lia.
    assert (2 ≤ 2 ^ (e - f)). { replace (e - f) with (Z.succ (e - f - 1)) by lia. rewrite Z.pow_succ_r by lia. pose proof (Z.pow_pos_nonneg 2 (e - f - 1)). lia. }
    set (k := 2 ^ (e - f)) in *. clearbody k. change (2 ^ 52) with 4503599627370496 in *. change (2 ^ 53) with 9007199254740992 in *.
    assert (9007199254740992 ≤ m * k) by nia. change (10 ^ 16) with 10000000000000000. lia.
Qed.

Definition mag (x : spec_float) : Q := match x with S754_finite _ m e => (inject_Z (Zpos m) * p2 e)%Q | _ => 0%Q end.
Lemma value_mag x : (float_value x == if sign_of x then - mag x else mag x)%Q.
Proof.
  destruct x as [s|s| |s m e]; [by destruct s|by destruct s|done|]. destruct s; cbn [float_value sign_of mag]; [|done].
  change (Zneg m) with (- Zpos m). rewrite inject_Z_opp. unfold p2. ring.
Qed.

Lemma gap x y : valid64 x → finite_float x → valid64 y → finite_float y → ¬ (float_value y == float_value x)%Q → ¬ (mag x == 0)%Q →
  (mag x < inject_Z (10 ^ 16) * Qabs (float_value y - float_value x))%Q.
Proof.
  intros Hx Fx Hy Fy Hne H0. destruct x as [| | |sx m e]; try (exfalso; apply H0; reflexivity). clear H0.
  destruct (valid_finite _ _ _ Hx) as (X1 & X2 & X3).
  assert (∃ n f, Z.abs n < 2 ^ 53 ∧ -1074 ≤ f ∧ (float_value y == inject_Z n * p2 f)%Q) as (n & f & N1 & N2 & EN).
  { destruct y as [| | |sy n f]; try done.
    - exists 0, 0. split_and!; [done|done|]. reflexivity.
    - destruct (valid_finite _ _ _ Hy) as (Y1 & Y2 & Y3). exists (if sy then Zneg n else Zpos n), f. split_and!; [by destruct sy|done|]. reflexivity. }
  rewrite EN in *. cbn [mag]. destruct sx.
  - assert (float_value (S754_finite true m e) == - (inject_Z (Zpos m) * p2 e))%Q as E by apply value_mag. rewrite E in *.
    rewrite <-Qabs_opp. assert (- (inject_Z n * p2 f - - (inject_Z (Zpos m) * p2 e)) == inject_Z (- n) * p2 f - inject_Z (Zpos m) * p2 e)%Q as -> by (rewrite inject_Z_opp; ring).
    apply gap_pos; try done; [lia|]. intros E'. apply Hne. rewrite <-E', inject_Z_opp. ring.
  - assert (float_value (S754_finite false m e) == inject_Z (Zpos m) * p2 e)%Q as E by apply value_mag. rewrite E in *.
    apply gap_pos; try done. lia.
Qed.

(** What is written for a double: the decimal number. *)
Definition sci_value (x : spec_float) : Q :=
  match x with
  | S754_finite s m e =>
      let '(q, d) := if 0 <=? e then sci_round 16 (Zpos m * 2 ^ e) 1 else sci_round 16 (Zpos m) (2 ^ (- e)) in
      (inject_Z q * p10 (d - 16))%Q
  | _ => 0%Q
  end.
Lemma sci_value_near x : (2 * inject_Z (10 ^ 16) * Qabs (sci_value x - mag x) <= mag x)%Q.
Proof.
  destruct x as [| | |s m e]; try (cbn; discriminate). cbn [sci_value mag].
  assert (∀ a b q d, 0 < a → 0 < b → sci_round 16 a b = (q, d) → (inject_Z a == inject_Z (Zpos m) * p2 e * inject_Z b)%Q →
    (2 * inject_Z (10 ^ 16) * Qabs (inject_Z q * p10 (d - 16) - inject_Z (Zpos m) * p2 e) <= inject_Z (Zpos m) * p2 e)%Q) as Hgen.
  { intros a b q d Ha Hb E Ev. destruct (sci_round_spec 16 a b q d ltac:(lia) Ha Hb E) as (_ & u & Eu & Hu).
    destruct (dec_exp_spec a b Ha Hb) as [Hd _]. rewrite Ev in *. set (X := (inject_Z (Zpos m) * p2 e)%Q) in *. set (D := (inject_Z q * p10 (d - 16))%Q) in *.
    assert (0 < inject_Z b)%Q as Hb' by (apply (inj_lt 0 b); done).
    assert (p10 (dec_exp a b) == inject_Z (10 ^ 16) * u)%Q as E1.
    { rewrite Eu, <-p10_Z, <-p10_add by lia. by replace (16 + (dec_exp a b - 16)) with (dec_exp a b) by lia. }
    rewrite E1 in Hd. assert (D * inject_Z b - X * inject_Z b == (D - X) * inject_Z b)%Q as E2 by ring. rewrite E2, Qabs_Qmult, (Qabs_pos (inject_Z b)) in Hu by (by apply Qlt_le_weak).
    apply (Qmult_le_r _ _ (inject_Z b)); [done|]. eapply Qle_trans; [|exact Hd].
    assert (2 * inject_Z (10 ^ 16) * Qabs (D - X) * inject_Z b == inject_Z (10 ^ 16) * (2 * (Qabs (D - X) * inject_Z b)))%Q as -> by ring.
    assert (inject_Z (10 ^ 16) * u * inject_Z b == inject_Z (10 ^ 16) * (u * inject_Z b))%Q as -> by ring.
    apply Qmult_le_l; [reflexivity|done]. }
  destruct (Z.leb_spec 0 e) as [He|He]; destruct (sci_round _ _ _) as [q d] eqn:E; refine (Hgen _ _ _ _ _ _ E _).
  - pose proof (Z.pow_pos_nonneg 2 e). lia.
  - lia.
  - rewrite inject_Z_mult, <-p2_Z by done. ring.
  - lia.
  - apply Z.pow_pos_nonneg; lia.
  - rewrite <-p2_Z, <-Qmult_assoc, <-p2_add by lia. replace (e + - e) with 0 by lia. change (p2 0) with 1%Q. ring.
Qed.
Definition sci_signed (x : spec_float) : Q := (if sign_of x then - sci_value x else sci_value x)%Q.
Lemma sci_nearest x : valid64 x → finite_float x → nearest x (sci_signed x).
Proof.
  intros Hx Fx y Hy Fy Hne. pose proof (sci_value_near x) as Hn.
  assert (Qabs (float_value x - sci_signed x) == Qabs (sci_value x - mag x))%Q as E.
  { rewrite value_mag. unfold sci_signed. destruct (sign_of x).
    - assert (- mag x - - sci_value x == sci_value x - mag x)%Q as -> by ring. done.
    - rewrite <-Qabs_opp. assert (- (mag x - sci_value x) == sci_value x - mag x)%Q as -> by ring. done. }
  destruct (Qeq_dec (mag x) 0) as [H0|H0].
  - assert (Qabs (sci_value x - mag x) == 0)%Q as E0.
    { rewrite H0 in Hn |- *. pose proof (Qabs_nonneg (sci_value x - 0)). change (inject_Z (10 ^ 16)) with 10000000000000000%Q in Hn. lra. }
    rewrite E, E0. 
    assert (float_value x == 0)%Q as Ex. { rewrite value_mag. destruct (sign_of x); rewrite H0; reflexivity. }
    assert (sci_signed x == 0)%Q as Es.
    { rewrite E0 in E. assert (float_value x - sci_signed x == 0)%Q as E'; [|rewrite Ex in E'; lra].
      destruct (Qlt_le_dec (float_value x - sci_signed x) 0) as [L|L].
      - rewrite Qabs_neg in E by (by apply Qlt_le_weak). lra.
      - rewrite Qabs_pos in E by done. done. }
    rewrite Es. rewrite Ex in Hne. destruct (Qlt_le_dec (float_value y - 0) 0) as [L|L].
    + rewrite Qabs_neg by (by apply Qlt_le_weak). lra.
    + rewrite Qabs_pos by done. destruct (Qlt_le_dec 0 (float_value y - 0)) as [|L']; [done|]. exfalso. apply Hne. lra.
  - pose proof (gap x y Hx Fx Hy Fy Hne H0) as Hg. pose proof (Qabs_triangle (float_value y - sci_signed x) (sci_signed x - float_value x)) as Ht.
    assert (float_value y - sci_signed x + (sci_signed x - float_value x) == float_value y - float_value x)%Q as Ei by ring. rewrite Ei in Ht.
    assert (Qabs (sci_signed x - float_value x) == Qabs (float_value x - sci_signed x))%Q as Es.
    { rewrite <-Qabs_opp. assert (- (sci_signed x - float_value x) == float_value x - sci_signed x)%Q as -> by ring. done. }
    rewrite Es in Ht. rewrite <-E in Hn. change (inject_Z (10 ^ 16)) with 10000000000000000%Q in *.
    set (A := Qabs (float_value x - sci_signed x)) in *. set (B := Qabs (float_value y - sci_signed x)) in *. set (C := Qabs (float_value y - float_value x)) in *.
    clearbody A B C. lra.
Qed.

(** ** Reading a double back *)
Lemma cut_app c t t' : Forall (λ x, x ≠ c) t → cut c (t ++ c :: t') = (t, t').
Proof.
  induction 1 as [|x t Hx _ IH]; cbn.
  - by destruct (ascii_dec c c).
  - destruct (ascii_dec x c); [done|]. by rewrite IH.
Qed.
Lemma cut_none c t : Forall (λ x, x ≠ c) t → cut c t = (t, []).
Proof. induction 1 as [|x t Hx _ IH]; cbn; [done|]. destruct (ascii_dec x c); [done|]. by rewrite IH. Qed.
Lemma not_digit c : digit_of c = None → ¬ is_digit c.
Proof. intros H [d Hd]. congruence. Qed.
Lemma digits_not c t : digit_of c = None → Forall is_digit t → Forall (λ x, x ≠ c) t.
Proof. intros Hc Ht. eapply Forall_impl; [exact Ht|]. intros x [d Hd] ->. congruence. Qed.

Lemma put_exp_facts d : ∃ t, put_exp d = "e"%char :: t ∧ read_int t = Some d ∧ Forall (λ c, is_digit c ∨ c = "-"%char ∨ c = "+"%char) t.
Proof.
  unfold put_exp. eexists. split; [done|]. 
  assert (read_nat ((if Z.abs d <? 10 then ["0"%char] else []) ++ put_nat (Z.abs d)) = Some (Z.abs d)) as Hr.
  { destruct (Z.abs d <? 10); [|apply read_put_nat; lia]. destruct (put_nat_facts (Z.abs d)) as [H _]; [lia|]. exact H. }
  set (r := (if Z.abs d <? 10 then ["0"%char] else []) ++ put_nat (Z.abs d)) in *.
  assert (Forall is_digit r) as Hd.
  { subst r. apply Forall_app. split; [destruct (Z.abs d <? 10); [apply Forall_singleton; by eexists|constructor]|]. apply put_nat_facts. lia. }
  clearbody r. split.
  - cbn [read_int]. destruct (Z.ltb_spec d 0).
    + destruct (ascii_dec "-" "-"); [|done]. rewrite Hr. cbn. f_equal. lia.
    + destruct (ascii_dec "+" "-"); [done|]. destruct (ascii_dec "+" "+"); [|done]. rewrite Hr. f_equal. lia.
  - constructor; [destruct (d <? 0); tauto|]. eapply Forall_impl; [done|]. tauto.
Qed.

Lemma put_point_facts t : Forall is_digit t → t ≠ [] →
  (∃ i f, cut "." (put_point t) = (i, f) ∧ i ++ f = t ∧ zlen f = zlen t - 1) ∧
  Forall (λ c, is_digit c ∨ c = "."%char) (put_point t) ∧ ∃ c r, put_point t = c :: r ∧ is_digit c.
Proof.
  intros Hd Hne. destruct t as [|c [|c' t]]; [done| |].
  - apply Forall_cons in Hd as [Hc _]. split_and!.
    + exists [c], []. cbn. destruct (ascii_dec c ".") as [->|]; [by apply not_digit in Hc|]. done.
    + constructor; [by left|constructor].
    + by exists c, [].
  - apply Forall_cons in Hd as [Hc Ht]. split_and!.
    + exists [c], (c' :: t). cbn. destruct (ascii_dec c ".") as [->|]; [by apply not_digit in Hc|]. split_and!; [done|done|]. unfold zlen. cbn. lia.
    + cbn. constructor; [by left|]. constructor; [by right|]. eapply Forall_impl; [done|]. by left.
    + by exists c, ("."%char :: c' :: t).
Qed.
Lemma read_put_dec t n d : Forall is_digit t → t ≠ [] → read_nat t = Some n →
  read_dec (put_point t ++ put_exp d) = Some (inject_Z n * p10 (d - (zlen t - 1)))%Q.
Proof.
  intros Hd Hne Hn. destruct (put_point_facts t Hd Hne) as ((i & f & E1 & E2 & E3) & Hc & _).
  destruct (put_exp_facts d) as (te & Ee & Hr & _). unfold read_dec. rewrite Ee, cut_app.
  - rewrite E1, E2, Hn, Hr, E3. done.
  - eapply Forall_impl; [exact Hc|]. intros x [Hx|Hx] ->; [by apply not_digit in Hx|done].
Qed.
Lemma read_put_signed s t : (∃ c r, t = c :: r ∧ is_digit c) → read_num (put_sign s ++ t) = option_map (pair s) (read_dec t).
Proof.
  intros (c & r & -> & Hc). destruct s; cbn [put_sign app read_num].
  - by destruct (ascii_dec "-" "-").
  - destruct (ascii_dec c "-") as [->|]; [by apply not_digit in Hc|done].
Qed.

(** The digits of a finite number. *)
Definition sci_digits (x : spec_float) : text * Z :=
  match x with
  | S754_finite s m e =>
      let '(q, d) := if 0 <=? e then sci_round 16 (Zpos m * 2 ^ e) 1 else sci_round 16 (Zpos m) (2 ^ (- e)) in (put_nat q, d)
  | _ => (replicate 17 "0"%char, 0)
  end.
Lemma put_sci_eq x : finite_float x → put_sci 16 x = put_sign (sign_of x) ++ put_point (sci_digits x).1 ++ put_exp (sci_digits x).2.
Proof. destruct x as [s| | |s m e]; intros F; try done. cbn [put_sci sci_digits sign_of]. by destruct (if 0 <=? e then _ else _) as [q d]. Qed.
Lemma sci_digits_facts x : finite_float x → ∃ n, Forall is_digit (sci_digits x).1 ∧ zlen (sci_digits x).1 = 17 ∧
  read_nat (sci_digits x).1 = Some n ∧ (inject_Z n * p10 ((sci_digits x).2 - 16) == sci_value x)%Q.
Proof.
  destruct x as [s| | |s m e]; intros F; try done.
  - exists 0. cbn [sci_digits fst snd]. split_and!; [|done|done|].
    + apply Forall_replicate. by eexists.
    + reflexivity.
  - cbn [sci_digits sci_value]. 
    assert (∃ a b, 0 < a ∧ 0 < b ∧ (if 0 <=? e then sci_round 16 (Zpos m * 2 ^ e) 1 else sci_round 16 (Zpos m) (2 ^ (- e))) = sci_round 16 a b) as (a & b & Ha & Hb & ->).
    { destruct (Z.leb_spec 0 e).
      - exists (Zpos m * 2 ^ e), 1. split_and!; [|lia|done]. pose proof (Z.pow_pos_nonneg 2 e). lia.
      - exists (Zpos m), (2 ^ (- e)). split_and!; [lia|apply Z.pow_pos_nonneg; lia|done]. }
    destruct (sci_round 16 a b) as [q d] eqn:E. destruct (sci_round_spec 16 a b q d ltac:(lia) Ha Hb E) as (Hq & _).
    exists q. cbn [fst snd]. pose proof (Z.pow_pos_nonneg 10 16 ltac:(lia) ltac:(lia)). split_and!.
    + apply put_nat_facts. lia.
    + apply (put_nat_len_of q 16); [lia|]. done.
    + apply read_put_nat. lia.
    + done.
Qed.
Lemma read_put_sci x : finite_float x → ∃ q, read_num (put_sci 16 x) = Some (sign_of x, q) ∧ (q == sci_value x)%Q.
Proof.
  intros F. destruct (sci_digits_facts x F) as (n & Hd & Hl & Hn & Hv). rewrite put_sci_eq by done.
  assert ((sci_digits x).1 ≠ []) as Hne by (intros E; rewrite E in Hl; done).
  destruct (put_point_facts _ Hd Hne) as (_ & _ & c & r & Ep & Hc).
  rewrite read_put_signed; [|rewrite Ep; cbn; eauto]. rewrite (read_put_dec _ n) by done. rewrite Hl. eexists. split; [done|exact Hv].
Qed.
Lemma nearest_comp x q q' : (q == q')%Q → nearest x q → nearest x q'.
Proof. intros E H y Hy Fy Hne. rewrite <-!E. by apply H. Qed.
Lemma number_reads x : valid64 x → finite_float x →
  ∃ q, read_num (put_sci 16 x) = Some (sign_of x, q) ∧ nearest x (signed (sign_of x, q)).
Proof.
  intros Hx F. destruct (read_put_sci x F) as (q & Hr & Hq). exists q. split; [done|].
  eapply nearest_comp; [|by apply sci_nearest]. unfold sci_signed, signed. cbn [fst snd]. destruct (sign_of x); by rewrite Hq.
Qed.

(** ** Different doubles, different texts *)
Lemma nearest_unique x y q q' : valid64 x → valid64 y → finite_float x → finite_float y → (q == q')%Q → nearest x q → nearest y q' → (float_value x == float_value y)%Q.
Proof.
  intros Hx Hy Fx Fy Eq Nx Ny. destruct (Qeq_dec (float_value x) (float_value y)) as [|Hne]; [done|]. exfalso.
  specialize (Nx y Hy Fy (λ E, Hne (Qeq_sym _ _ E))). specialize (Ny x Hx Fx Hne). rewrite Eq in Nx. apply (Qlt_irrefl (Qabs (float_value x - q'))). by eapply Qlt_trans.
Qed.
Lemma value_inj x y : valid64 x → valid64 y → finite_float x → finite_float y → sign_of x = sign_of y → (float_value x == float_value y)%Q → x = y.
Proof.
  intros Hx Hy Fx Fy Es Ev. rewrite !value_mag, Es in Ev.
  assert (mag x == mag y)%Q as Em by (destruct (sign_of y); [|done]; rewrite <-(Qopp_involutive (mag x)), Ev; ring). clear Ev.
  assert (∀ m e, ¬ (inject_Z (Zpos m) * p2 e == 0)%Q) as Hnz.
  { intros m e E. assert (0 < inject_Z (Zpos m) * p2 e)%Q as H; [|rewrite E in H; by apply Qlt_irrefl in H].
    rewrite <-(Qmult_0_l (p2 e)). apply Qmult_lt_compat_r; [apply p2_pos|reflexivity]. }
  destruct x as [s| | |s m e], y as [s'| | |s' m' e']; try done; cbn [sign_of mag] in *; subst.
  - done.
  - by apply Qeq_sym, Hnz in Em.
  - by apply Hnz in Em.
  - destruct (valid_finite _ _ _ Hx) as (X1 & X2 & X3). destruct (valid_finite _ _ _ Hy) as (Y1 & Y2 & Y3).
    assert (∀ m e m' e', (inject_Z (Zpos m) * p2 e == inject_Z (Zpos m') * p2 e')%Q → e ≤ e' → Zpos m = Zpos m' * 2 ^ (e' - e)) as Hgen.
    { clear. intros m e m' e' E He. apply (inject_Z_injective). rewrite inject_Z_mult, <-p2_Z by lia.
      apply (Qmult_inj_r _ _ (p2 e)). { intros E0. pose proof (p2_pos e) as H. rewrite E0 in H. by apply Qlt_irrefl in H. }
      rewrite E, (p2_split e e'). ring. }
    assert (∀ m e m' e', (inject_Z (Zpos m) * p2 e == inject_Z (Zpos m') * p2 e')%Q → e < e' → Zpos m < 2 ^ 53 → (2 ^ 52 ≤ Zpos m' ∨ e' = -1074) → -1074 ≤ e → False) as Hlt.
    { intros a b a' b' E He H1 H2 H3. apply Hgen in E; [|lia]. replace (b' - b) with (Z.succ (b' - b - 1)) in E by lia. rewrite Z.pow_succ_r in E by lia.
      pose proof (Z.pow_pos_nonneg 2 (b' - b - 1) ltac:(lia) ltac:(lia)). change (2 ^ 53) with 9007199254740992 in *. change (2 ^ 52) with 4503599627370496 in *. nia. }
    destruct (Z.lt_trichotomy e e') as [L|[->|L]].
    + by destruct (Hlt _ _ _ _ Em L).
    + apply Hgen in Em; [|lia]. rewrite Z.sub_diag in Em. f_equal. lia.
    + by destruct (Hlt _ _ _ _ (Qeq_sym _ _ Em) L).
Qed.
Lemma put_sci_inj x y : valid64 x → valid64 y → put_sci 16 x = put_sci 16 y → x = y.
Proof.
  intros Hx Hy E.
  assert (∀ z, finite_float z ∨ ¬ finite_float z) as Hdec by (intros [| | |]; cbn; tauto).
  assert (∀ z, ¬ finite_float z → read_num (put_sci 16 z) = None) as Hnone by (intros [| [] | |]; cbn; done).
  destruct (Hdec x) as [Fx|Fx], (Hdec y) as [Fy|Fy].
  - destruct (number_reads x Hx Fx) as (q & Hr & Hq), (number_reads y Hy Fy) as (q' & Hr' & Hq'). rewrite E, Hr' in Hr. injection Hr as Es Ev.
    apply value_inj; try done. refine (nearest_unique x y _ _ Hx Hy Fx Fy _ Hq Hq'). rewrite Es, Ev. reflexivity.
  - specialize (Hnone y Fy). destruct (read_put_sci x Fx) as (q & Hr & _). rewrite E in Hr. congruence.
  - specialize (Hnone x Fx). destruct (read_put_sci y Fy) as (q & Hr & _). rewrite E in Hnone. congruence.
  - destruct x as [|[]| |], y as [|[]| |]; try done; exfalso; by apply Fx.
Qed.

(** ** Lines *)
Definition plain (c : ascii) : Prop := c ≠ " "%char ∧ c ≠ "010"%char.
Lemma fields_plain c t : Forall (λ x, x ≠ c) t → fields c t = [t].
Proof. induction 1 as [|x t Hx _ IH]; cbn; [done|]. destruct (ascii_dec x c); [done|]. by rewrite IH. Qed.
Lemma fields_app c t t' : Forall (λ x, x ≠ c) t → fields c (t ++ c :: t') = t :: fields c t'.
Proof.
  induction 1 as [|x t Hx _ IH]; cbn.
  - by destruct (ascii_dec c c).
  - destruct (ascii_dec x c); [done|]. by rewrite IH.
Qed.
Lemma plain_space t : Forall plain t → Forall (λ x, x ≠ " "%char) t.
Proof. intros H. eapply Forall_impl; [exact H|]. by intros x []. Qed.
Lemma plain_nl t : Forall plain t → Forall (λ x, x ≠ "010"%char) t.
Proof. intros H. eapply Forall_impl; [exact H|]. by intros x []. Qed.
Lemma digit_plain c : is_digit c → plain c.
Proof. intros H. split; intros ->; by apply not_digit in H. Qed.
Lemma put_int_plain z : Forall plain (put_int z).
Proof.
  destruct (put_int_facts z) as [_ H]. eapply Forall_impl; [exact H|]. intros c [Hc| ->]; [by apply digit_plain|done].
Qed.

(** The text of a weight. *)
Definition put_weight (hex : bool) (x : spec_float) : text := if hex then put_hex x else put_sci 16 x.
Lemma put_sign_plain s : Forall plain (put_sign s).
Proof. destruct s; repeat constructor; done. Qed.
Lemma put_sci_plain x : Forall plain (put_sci 16 x).
Proof.
  assert (finite_float x ∨ ¬ finite_float x) as [F|F] by (destruct x; cbn; tauto).
  - destruct (sci_digits_facts x F) as (n & Hd & Hl & _). rewrite put_sci_eq by done.
    assert ((sci_digits x).1 ≠ []) as Hne by (intros E; rewrite E in Hl; done).
    destruct (put_point_facts _ Hd Hne) as (_ & Hp & _). destruct (put_exp_facts (sci_digits x).2) as (t & -> & _ & He).
    apply Forall_app. split; [apply put_sign_plain|]. apply Forall_app. split.
    + eapply Forall_impl; [exact Hp|]. intros c [Hc| ->]; [by apply digit_plain|done].
    + constructor; [done|]. eapply Forall_impl; [exact He|]. intros c [Hc|[-> | ->]]; [by apply digit_plain|done|done].
  - destruct x as [|[]| |]; try (by destruct F); repeat constructor; done.
Qed.

Lemma hexdigit_plain d : 0 ≤ d < 16 → plain (digit d).
Proof.
  intros Hd. assert (d = 0 ∨ d = 1 ∨ d = 2 ∨ d = 3 ∨ d = 4 ∨ d = 5 ∨ d = 6 ∨ d = 7 ∨ d = 8 ∨ d = 9 ∨ d = 10 ∨ d = 11 ∨ d = 12 ∨ d = 13 ∨ d = 14 ∨ d = 15) as H by lia.
  destruct_or! H; subst; done.
Qed.
Lemma put_hex_digits_plain n z : 0 ≤ z < 16 ^ Z.of_nat n → Forall plain (put_hex_digits n z).
Proof.
  revert z. induction n as [|n IH]; intros z Hz; cbn [put_hex_digits]; [constructor|].
  destruct (z =? 0); [constructor|]. pose proof (Z.pow_pos_nonneg 16 (Z.of_nat n) ltac:(lia) ltac:(lia)). constructor.
  - apply hexdigit_plain. rewrite Nat2Z.inj_succ, Z.pow_succ_r in Hz by lia. split; [apply Z.div_pos; lia|apply Z.div_lt_upper_bound; lia].
  - apply IH. by apply Z.mod_pos_bound.
Qed.
Lemma put_hex_plain x : valid64 x → Forall plain (put_hex x).
Proof.
  intros Hx. unfold put_hex.
  assert (∀ z, Forall plain ("p"%char :: (if z <? 0 then "-"%char else "+"%char) :: put_nat (Z.abs z))) as He.
  { intros z. constructor; [done|]. constructor; [by destruct (z <? 0)|]. eapply Forall_impl; [apply put_nat_facts; lia|apply digit_plain]. }
  assert (∀ z, 0 ≤ z < 2 ^ 52 → Forall plain (if z =? 0 then [] else "."%char :: put_hex_digits 13 z)) as Hf.
  { intros z Hz. destruct (z =? 0); [constructor|]. constructor; [done|]. by apply put_hex_digits_plain. }
  destruct x as [s|s| |s m e].
  - apply Forall_app. split; [apply put_sign_plain|]. apply Forall_app. split; [repeat constructor; done|apply He].
  - apply Forall_app. split; [apply put_sign_plain|]. repeat constructor; done.
  - repeat constructor; done.
  - destruct (valid_finite _ _ _ Hx) as (X1 & _). apply Forall_app. split; [apply put_sign_plain|]. apply Forall_app. split; [repeat constructor; done|].
    change (2 ^ 53) with (2 * 2 ^ 52) in X1. destruct (Z.leb_spec (2 ^ 52) (Zpos m)); (constructor; [done|]; apply Forall_app; split; [apply Hf; lia|apply He]).
Qed.
Lemma put_weight_plain hex x : valid64 x → Forall plain (put_weight hex x).
Proof. intros Hx. destruct hex; [by apply put_hex_plain|apply put_sci_plain]. Qed.

Lemma read_put_line r c w : Forall plain w → read_line (put_int r ++ " "%char :: put_int c ++ " "%char :: w) = Some (r, c, w).
Proof.
  intros Hw. unfold read_line. rewrite fields_app by apply plain_space, put_int_plain. rewrite fields_app by apply plain_space, put_int_plain.
  rewrite fields_plain by by apply plain_space. destruct (put_int_facts r) as [-> _], (put_int_facts c) as [-> _]. done.
Qed.
Lemma read_put_matrix hex (rs : list (Z * Z * spec_float)) : Forall (λ x, valid64 x.2) rs →
  read_matrix (concat (map (put_record hex 16) rs)) = Some (map (λ x, (x.1.1, x.1.2, put_weight hex x.2)) rs).
Proof.
  unfold read_matrix. induction 1 as [|[[r c] w] rs Hw _ IH]; [done|]. cbn [map concat fst snd].
  assert (put_record hex 16 (r, c, w) ++ concat (map (put_record hex 16) rs) =
    (put_int r ++ " "%char :: put_int c ++ " "%char :: put_weight hex w) ++ "010"%char :: concat (map (put_record hex 16) rs)) as ->.
  { unfold put_record, put_weight. cbn [fst snd]. repeat (rewrite <-app_assoc; cbn [app]). done. }
  pose proof (put_weight_plain hex w Hw) as Hp. rewrite fields_app.
  - assert (∀ l ls x xs, read_line l = Some x → read_lines ls = Some xs → read_lines (l :: ls) = Some (x :: xs)) as Hcons.
    { intros l ls x xs Hl Hls. cbn [read_lines]. destruct ls as [|l' ls']; [done|]. by rewrite Hl, Hls. }
    apply Hcons; [by apply read_put_line|done].
  - apply Forall_app. split; [apply plain_nl, put_int_plain|]. constructor; [done|].
    apply Forall_app. split; [apply plain_nl, put_int_plain|]. constructor; [done|]. by apply plain_nl.
Qed.

(** Hexadecimal numbers are no decimal numbers. *)
Lemma put_hex_no_number x : finite_float x → ∃ w, put_hex x = put_sign (sign_of x) ++ "0"%char :: "x"%char :: w ∧ read_num (put_hex x) = None.
Proof.
  intros F. assert (∃ w, put_hex x = put_sign (sign_of x) ++ "0"%char :: "x"%char :: w) as [w E].
  { destruct x as [s| | |s m e]; try done; cbn [put_hex sign_of app]; eauto. }
  exists w. split; [done|]. rewrite E, read_put_signed; [|eexists _, _; split; [done|by eexists]].
  unfold read_dec. cbn [cut]. destruct (ascii_dec "0" "e"); [done|]. destruct (ascii_dec "x" "e"); [done|].
  destruct (cut "e" w) as [a b]. cbn [fst snd cut]. destruct (ascii_dec "0" "."); [done|]. destruct (ascii_dec "x" "."); [done|].
  destruct (cut "." a) as [i f]. done.
Qed.

(** ** Graphs *)
Lemma number_stands x : valid64 x → stands_for (put_sci 16 x) x.
Proof.
  intros Hx. destruct x as [s|s| |s m e]; cbn [stands_for].
  - by apply number_reads.
  - by destruct s.
  - done.
  - by apply number_reads.
Qed.
Lemma stands_for_inj w x y : valid64 x → valid64 y → stands_for w x → stands_for w y → x = y.
Proof.
  intros Hx Hy.
  assert (∀ z, (finite_float z ∧ (stands_for w z → ∃ q, read_num w = Some (sign_of z, q) ∧ nearest z (signed (sign_of z, q)))) ∨ (¬ finite_float z ∧ (stands_for w z → read_num w = None ∧ w = put_sci 16 z))) as H.
  { intros [s|[]| |s m e]; [by left|right..|by left]; (split; [intros []|]; cbn [stands_for]; intros ->; done). }
  intros Sx Sy. destruct (H x) as [[Fx Rx]|[Fx Rx]], (H y) as [[Fy Ry]|[Fy Ry]]; specialize (Rx Sx); specialize (Ry Sy).
  - destruct Rx as (q & Hr & Hq), Ry as (q' & Hr' & Hq'). rewrite Hr in Hr'. injection Hr' as Es Ev.
    apply value_inj; try done. refine (nearest_unique x y _ _ Hx Hy Fx Fy _ Hq Hq'). rewrite Es, Ev. reflexivity.
  - destruct Rx as (q & Hr & Hq), Ry as [Hr' _]. congruence.
  - destruct Rx as [Hr' _], Ry as (q & Hr & Hq). congruence.
  - destruct Rx as [_ ->], Ry as [_ E]. by apply put_sci_inj in E.
Qed.

Lemma flags_ok (fb sb born fl : Z) (hex : bool) : stream_flags fb sb born →
  fl = (if hex then Z.lor born (2 ^ fb) else born) ∨ fl = Z.lor (if hex then Z.lor born (2 ^ fb) else born) (2 ^ sb) →
  Z.land fl (Z.lnot (Z.lor (2 ^ fb) (2 ^ sb))) = born ∧ Z.testbit (Z.lor fl (2 ^ sb)) fb = hex.
Proof.
  intros (H1 & H2 & Hne & Hf & Hs) Hfl.
  assert (∀ k, 0 ≤ k → Z.testbit fl k = Z.testbit born k || (hex && (fb =? k)) || (Z.testbit fl k && (sb =? k))) as Hbit.
  { intros k Hk. destruct Hfl as [-> | ->], hex; rewrite ?Z.lor_spec, ?Z.pow2_bits_eqb by done;
      destruct (Z.testbit born k), (fb =? k), (sb =? k); done. }
  split.
  - apply Z.bits_inj'. intros k Hk. rewrite Z.land_spec, Z.lnot_spec, Z.lor_spec, !Z.pow2_bits_eqb by done. rewrite Hbit by done.
    destruct (Z.eqb_spec fb k) as [<-|]; [|destruct (Z.eqb_spec sb k) as [<-|]].
    + rewrite Hf. destruct hex, (Z.testbit fl fb), (sb =? fb); done.
    + rewrite Hs. destruct hex, (Z.testbit fl sb); done.
    + destruct (Z.testbit born k), hex, (Z.testbit fl k); done.
  - rewrite Z.lor_spec, Z.pow2_bits_eqb, Hbit, Hf, Z.eqb_refl by done. destruct (Z.eqb_spec sb fb); [done|]. destruct hex, (Z.testbit fl fb); done.
Qed.

Lemma sum_valid (l : list (@num b64)) : Forall valid64 l → valid64 (@sum_left b64 l).
Proof.
  intros H. unfold sum_left. assert (valid64 (@n0 b64)) as H0 by done. revert H0. generalize (@n0 b64).
  induction H as [|x l Hx _ IH]; intros a Ha; cbn [foldl]; [done|]. apply IH. exact (o_ok_add _ b64_laws a x Ha Hx).
Qed.
Lemma text_exact (l : list (@connection b64)) (n fb sb born : Z) (st : fmt) (hex : bool) :
  weighted l → indices_ok l → 0 ≤ n < 2 ^ 31 → Forall (λ x : @connection b64, x.1.1 < n) l → Forall (λ x : @connection b64, ∀ w, x.2 = Some w → valid64 w) l →
  stream_flags fb sb born →
  f_flags st = (if hex then Z.lor born (2 ^ fb) else born) ∨ f_flags st = Z.lor (if hex then Z.lor born (2 ^ fb) else born) (2 ^ sb) →
  ∃ g (cols : Z → list Z) t st', ac_compress (add_all ac_new l) n = Ok (g, None) ∧ ac_put fb sb born st g = Ok (t, st') ∧
    read_matrix t = Some (seqZ 0 n ≫= (λ r, map (λ c, (r, c, put_weight hex (sum_left (weights_at l r c)))) (cols r))) ∧
    (∀ r c, valid64 (sum_left (weights_at l r c))) ∧
    (∀ r, 0 ≤ r < n → StronglySorted Z.lt (cols r) ∧ ∀ c, c ∈ cols r ↔ (r, c) ∈ map fst l).
Proof.
  intros Hw Hidx Hn Hr Hv Hf Hfl. destruct (flags_ok fb sb born (f_flags st) hex Hf Hfl) as [G1 G2].
  destruct (print_exact b64 l n (2 ^ sb) st Hw Hidx Hn Hr) as (g & cols & st' & Hc & Hp & Hcols & _).
  assert (∀ r c, valid64 (sum_left (weights_at l r c))) as Hs.
  { intros r c. apply sum_valid. apply Forall_forall. intros w Hin. unfold weights_at in Hin. apply elem_of_list_omap in Hin as (x & Hx & E).
    destruct (decide _); [|done]. rewrite Forall_forall in Hv. by apply (Hv x). }
  exists g, cols. eexists _, st'. split; [done|]. split; [|split_and!; [|done|done]].
  - unfold ac_put. rewrite (proj2 (Z.eqb_eq _ _) G1). cbn [negb]. rewrite Hp. cbn [mbind res_bind]. rewrite G2. reflexivity.
  - cbn [fst snd]. rewrite read_put_matrix.
    + f_equal. clear Hp. induction (seqZ 0 n) as [|r rs IH]; [done|]. cbn [mbind list_bind]. rewrite map_app. f_equal; [|exact IH]. by rewrite map_map.
    + apply Forall_forall. intros x Hx. apply elem_of_list_bind in Hx as (r & Hx & _). apply elem_of_list_fmap in Hx as (c & -> & _). apply Hs.
Qed.

Lemma text_scientific (l : list (@connection b64)) (n fb sb born : Z) (st : fmt) :
  weighted l → indices_ok l → 0 ≤ n < 2 ^ 31 → Forall (λ x : @connection b64, x.1.1 < n) l → Forall (λ x : @connection b64, ∀ w, x.2 = Some w → valid64 w) l →
  stream_flags fb sb born → f_flags st = born ∨ f_flags st = Z.lor born (2 ^ sb) →
  ∃ g (cols : Z → list Z) (w : Z → Z → text) t st', ac_compress (add_all ac_new l) n = Ok (g, None) ∧ ac_put fb sb born st g = Ok (t, st') ∧
    read_matrix t = Some (seqZ 0 n ≫= (λ r, map (λ c, (r, c, w r c)) (cols r))) ∧
    (∀ r, 0 ≤ r < n → StronglySorted Z.lt (cols r) ∧ ∀ c, c ∈ cols r ↔ (r, c) ∈ map fst l) ∧
    (∀ r c, stands_for (w r c) (sum_left (weights_at l r c))).
Proof.
  intros Hw Hidx Hn Hr Hv Hf Hfl. destruct (text_exact l n fb sb born st false Hw Hidx Hn Hr Hv Hf Hfl) as (g & cols & t & st' & Hc & Hp & Ht & Hs & Hcols).
  exists g, cols, (λ r c, put_sci 16 (sum_left (weights_at l r c))), t, st'. split_and!; try done. intros r c. by apply number_stands.
Qed.
Lemma text_fixed (l : list (@connection b64)) (n fb sb born : Z) (st : fmt) :
  weighted l → indices_ok l → 0 ≤ n < 2 ^ 31 → Forall (λ x : @connection b64, x.1.1 < n) l → Forall (λ x : @connection b64, ∀ w, x.2 = Some w → valid64 w) l →
  stream_flags fb sb born → f_flags st = Z.lor born (2 ^ fb) ∨ f_flags st = Z.lor (Z.lor born (2 ^ fb)) (2 ^ sb) →
  ∃ g (cols : Z → list Z) (w : Z → Z → text) t st', ac_compress (add_all ac_new l) n = Ok (g, None) ∧ ac_put fb sb born st g = Ok (t, st') ∧
    read_matrix t = Some (seqZ 0 n ≫= (λ r, map (λ c, (r, c, w r c)) (cols r))) ∧
    (∀ r, 0 ≤ r < n → StronglySorted Z.lt (cols r) ∧ ∀ c, c ∈ cols r ↔ (r, c) ∈ map fst l) ∧
    (∀ r c, finite_float (sum_left (weights_at l r c)) → hexadecimal (w r c) (sign_of (sum_left (weights_at l r c)))).
Proof.
  intros Hw Hidx Hn Hr Hv Hf Hfl. destruct (text_exact l n fb sb born st true Hw Hidx Hn Hr Hv Hf Hfl) as (g & cols & t & st' & Hc & Hp & Ht & Hs & Hcols).
  exists g, cols, (λ r c, put_hex (sum_left (weights_at l r c))), t, st'. split_and!; try done. intros r c F.
  destruct (put_hex_no_number _ F) as (w & E & Hw'). split; [|done]. exists w. rewrite E. done.
Qed.

(** The text determines the matrix. *)
Lemma rows_inj {X} (n : Z) (f f' : Z → list (Z * X)) : 
  seqZ 0 n ≫= (λ r, map (λ x, (r, x.1, x.2)) (f r)) = seqZ 0 n ≫= (λ r, map (λ x, (r, x.1, x.2)) (f' r)) →
  ∀ r, 0 ≤ r < n → f r = f' r.
Proof.
  assert (∀ ls, NoDup ls → (ls ≫= (λ r : Z, map (λ x : Z * X, (r, x.1, x.2)) (f r))) = (ls ≫= (λ r, map (λ x, (r, x.1, x.2)) (f' r))) → ∀ r, r ∈ ls → f r = f' r) as H.
  { induction 1 as [|r ls Hr _ IH]; intros E; [by intros r ?%elem_of_nil|]. cbn [mbind list_bind] in E.
    assert (∀ (h : Z → list (Z * X)) y, y ∈ (ls ≫= (λ r, map (λ x : Z * X, (r, x.1, x.2)) (h r))) → y.1.1 ≠ r) as Hd.
    { intros h y Hy. apply elem_of_list_bind in Hy as (r' & Hy & Hr'). apply elem_of_list_fmap in Hy as (x & -> & _). cbn. by intros ->. }
    assert (∀ (A A' : list (Z * X)) (B B' : list (Z * Z * X)), (∀ y, y ∈ B → y.1.1 ≠ r) → (∀ y, y ∈ B' → y.1.1 ≠ r) →
       map (λ x : Z * X, (r, x.1, x.2)) A ++ B = map (λ x : Z * X, (r, x.1, x.2)) A' ++ B' → A = A' ∧ B = B') as Hsplit.
    { clear. induction A as [|[a x] A IH]; intros [|[a' x'] A'] B B' HB HB' E; cbn in E.
      - done.
      - subst B. exfalso. by apply (HB (r, a', x')); [left|].
      - subst B'. exfalso. by apply (HB' (r, a, x)); [left|].
      - injection E as -> -> E. destruct (IH A' B B' HB HB' E) as [-> ->]. done. }
    apply Hsplit in E as [E1 E2]; [|apply Hd|apply Hd]. intros r' [->|Hr']%elem_of_cons; [done|]. by apply IH. }
  intros E r Hr. apply (H (seqZ 0 n)); [apply NoDup_seqZ|done|]. apply elem_of_seqZ. lia.
Qed.

Lemma rows_inj_map {X} (n : Z) (cols cols' : Z → list Z) (w w' : Z → Z → X) :
  seqZ 0 n ≫= (λ r, map (λ c, (r, c, w r c)) (cols r)) = seqZ 0 n ≫= (λ r, map (λ c, (r, c, w' r c)) (cols' r)) →
  ∀ r, 0 ≤ r < n → map (λ c, (c, w r c)) (cols r) = map (λ c, (c, w' r c)) (cols' r).
Proof.
  intros E. apply (rows_inj n (λ r, map (λ c, (c, w r c)) (cols r)) (λ r, map (λ c, (c, w' r c)) (cols' r))).
  assert (∀ (k : Z → list Z) (u : Z → Z → X) ls, ls ≫= (λ r, map (λ x, (r, x.1, x.2)) (map (λ c, (c, u r c)) (k r))) = ls ≫= (λ r, map (λ c, (r, c, u r c)) (k r))) as H.
  { intros k u ls. induction ls as [|r ls IH]; [done|]. cbn [mbind list_bind]. f_equal; [by rewrite map_map|exact IH]. }
  by rewrite !H.
Qed.

Lemma text_lossless (l l' : list (@connection b64)) (n fb sb born : Z) (st : fmt) g g' t st1 st2 :
  weighted l → indices_ok l → Forall (λ x : @connection b64, x.1.1 < n) l → Forall (λ x : @connection b64, ∀ w, x.2 = Some w → valid64 w) l →
  weighted l' → indices_ok l' → Forall (λ x : @connection b64, x.1.1 < n) l' → Forall (λ x : @connection b64, ∀ w, x.2 = Some w → valid64 w) l' →
  0 ≤ n < 2 ^ 31 → stream_flags fb sb born → f_flags st = born ∨ f_flags st = Z.lor born (2 ^ sb) →
  ac_compress (add_all ac_new l) n = Ok (g, None) → ac_compress (add_all ac_new l') n = Ok (g', None) →
  ac_put fb sb born st g = Ok (t, st1) → ac_put fb sb born st g' = Ok (t, st2) →
  ac_start g = ac_start g' ∧ ac_neigh g = ac_neigh g' ∧ ac_weight g = ac_weight g'.
Proof.
  intros W1 I1 R1 V1 W2 I2 R2 V2 Hn Hf Hfl C1 C2 P1 P2.
  destruct (text_exact l n fb sb born st false W1 I1 Hn R1 V1 Hf Hfl) as (h & cols & t1 & s1 & Hc & Hp & Ht & Hs & Hcols).
  destruct (text_exact l' n fb sb born st false W2 I2 Hn R2 V2 Hf Hfl) as (h' & cols' & t2 & s2 & Hc' & Hp' & Ht' & Hs' & Hcols').
  rewrite C1 in Hc. injection Hc as <-. rewrite C2 in Hc'. injection Hc' as <-. rewrite P1 in Hp. injection Hp as <- <-. rewrite P2 in Hp'. injection Hp' as <- <-.
  rewrite Ht in Ht'. injection Ht' as E.
  pose proof (rows_inj_map n _ _ _ _ E) as Hrow.
  assert (∀ r c, (r, c) ∈ map fst l → 0 ≤ r < n) as Hin1.
  { intros r c H. apply elem_of_list_fmap in H as (x & Ex & Hx). unfold indices_ok in I1; rewrite Forall_forall in R1, I1. specialize (R1 x Hx). destruct (I1 x Hx) as [[] _]. rewrite <-Ex in *. cbn in *. lia. }
  assert (∀ r c, (r, c) ∈ map fst l' → 0 ≤ r < n) as Hin2.
  { intros r c H. apply elem_of_list_fmap in H as (x & Ex & Hx). unfold indices_ok in I2; rewrite Forall_forall in R2, I2. specialize (R2 x Hx). destruct (I2 x Hx) as [[] _]. rewrite <-Ex in *. cbn in *. lia. }
  assert (∀ r, 0 ≤ r < n → cols r = cols' r ∧ ∀ c, c ∈ cols r → sum_left (weights_at l r c) = sum_left (weights_at l' r c)) as Hrows.
  { intros r Hr. specialize (Hrow r Hr).
    assert (∀ C C' : list Z, map (λ c, (c, put_weight false (sum_left (weights_at l r c)))) C = map (λ c, (c, put_weight false (sum_left (weights_at l' r c)))) C' →
      C = C' ∧ ∀ c, c ∈ C → sum_left (weights_at l r c) = sum_left (weights_at l' r c)) as Hi.
    { induction C as [|c C IH]; intros [|c' C'] EC; try done; cbn in EC.
      - split; [done|]. by intros c ?%elem_of_nil.
      - injection EC as <- Ew EC. apply IH in EC as [<- HC]. split; [done|]. intros c0 [->|H]%elem_of_cons; [|by apply HC].
        apply put_sci_inj in Ew; done. }
    by apply Hi. }
  assert (∀ r c, (r, c) ∈ map fst l ↔ (r, c) ∈ map fst l') as HE.
  { intros r c. split; intros H.
    - pose proof (Hin1 r c H) as Hr. destruct (Hrows r Hr) as [Ec _]. apply (Hcols' r Hr). rewrite <-Ec. by apply (Hcols r Hr).
    - pose proof (Hin2 r c H) as Hr. destruct (Hrows r Hr) as [Ec _]. apply (Hcols r Hr). rewrite Ec. by apply (Hcols' r Hr). }
  destruct (compress_new b64 l n) as (k & K1 & K2 & K3 & _); try done; [by right|lia|]. rewrite C1 in K1. injection K1 as <-.
  destruct (compress_new b64 l' n) as (k' & K1' & K2' & K3' & _); try done; [by right|lia|]. rewrite C2 in K1'. injection K1' as <-.
  apply (is_csr_ext n _ (λ r c, (r, c) ∈ map fst l)) in K2'; [|intros r c; by rewrite HE].
  destruct (is_csr_unique _ _ _ _ _ _ K2 K2') as [Es Ej]. split_and!; [done|done|].
  specialize (K3 W1). specialize (K3' W2). rewrite <-Es, <-Ej in K3'.
  refine (is_weights_unique n _ _ _ _ _ _ _ K2 _ K3 K3'). intros r c H. pose proof (Hin1 r c H) as Hr. apply (Hrows r Hr). by apply (Hcols r Hr).
Qed.
