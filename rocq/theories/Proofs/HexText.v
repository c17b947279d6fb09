(** Hexadecimal numbers are read back exactly. *)
From Coq Require Import Ascii QArith Qabs Qpower Lqa Lia.
From Coq.Floats Require Import SpecFloat.
From Verif.Model Require Import Base Num AssembledConnections Text.
From Verif.Spec Require Import GraphSpec TextSpec HexSpec.
From Verif.Proofs Require Import OrdLaws B64Laws Util AConn GraphProps Text.
Open Scope Z_scope.

Lemma hexdigit_digit d : 0 ≤ d < 16 → hexdigit_of (digit d) = Some d.
Proof.
  intros Hd. assert (d = 0 ∨ d = 1 ∨ d = 2 ∨ d = 3 ∨ d = 4 ∨ d = 5 ∨ d = 6 ∨ d = 7 ∨ d = 8 ∨ d = 9 ∨ d = 10 ∨ d = 11 ∨ d = 12 ∨ d = 13 ∨ d = 14 ∨ d = 15) as H by lia.
  destruct_or! H; subst; reflexivity.
Qed.
Definition is_hex (c : ascii) : Prop := is_Some (hexdigit_of c).
Lemma hex_not c t : hexdigit_of c = None → Forall is_hex t → Forall (λ x, x ≠ c) t.
Proof. intros Hc Ht. eapply Forall_impl; [exact Ht|]. intros x [d Hd] ->. congruence. Qed.
Lemma hex_digits_read n z acc : 0 ≤ z < 16 ^ Z.of_nat n →
  Forall is_hex (put_hex_digits n z) ∧ zlen (put_hex_digits n z) ≤ Z.of_nat n ∧
  ∃ v, read_hexdigits acc (put_hex_digits n z) = Some v ∧
    v * 16 ^ (Z.of_nat n - zlen (put_hex_digits n z)) = acc * 16 ^ Z.of_nat n + z.
Proof.
  revert z acc. induction n as [|n IH]; intros z acc Hz; cbn [put_hex_digits].
  - split; [constructor|]. split; [done|]. exists acc. split; [done|]. change (16 ^ Z.of_nat 0) with 1 in *. change (16 ^ (Z.of_nat 0 - zlen (@nil ascii))) with 1. lia.
  - destruct (Z.eqb_spec z 0) as [->|Hne].
    + split; [constructor|]. split; [unfold zlen; cbn; lia|]. exists acc. split; [done|]. unfold zlen. cbn [length]. rewrite Z.sub_0_r. lia.
    + assert (0 < 16 ^ Z.of_nat n) as Hp by (apply Z.pow_pos_nonneg; lia).
      assert (16 ^ Z.of_nat (S n) = 16 * 16 ^ Z.of_nat n) as Es by (rewrite Nat2Z.inj_succ, Z.pow_succ_r; lia).
      assert (0 ≤ z / 16 ^ Z.of_nat n < 16) as Hq by (split; [apply Z.div_pos; lia|apply Z.div_lt_upper_bound; lia]).
      pose proof (Z.mod_pos_bound z (16 ^ Z.of_nat n) Hp) as Hr. pose proof (Z.div_mod z (16 ^ Z.of_nat n) ltac:(lia)) as Ez.
      destruct (IH (z mod 16 ^ Z.of_nat n) (16 * acc + z / 16 ^ Z.of_nat n) Hr) as (H1 & H2 & v & H3 & H4).
      split; [constructor; [exists (z / 16 ^ Z.of_nat n); by apply hexdigit_digit|done]|].
      unfold zlen in *. cbn [length]. split; [lia|]. exists v. cbn [read_hexdigits]. rewrite hexdigit_digit by done. split; [done|].
      replace (Z.of_nat (S n) - Z.of_nat (S (length (put_hex_digits n (z mod 16 ^ Z.of_nat n))))) with
        (Z.of_nat n - Z.of_nat (length (put_hex_digits n (z mod 16 ^ Z.of_nat n)))) by lia.
      rewrite H4, Es. nia.
Qed.

(** The exponent. *)
Lemma hex_exp z : read_int ((if z <? 0 then "-"%char else "+"%char) :: put_nat (Z.abs z)) = Some z.
Proof.
  pose proof (read_put_nat (Z.abs z) ltac:(lia)) as Hr. cbn [read_int]. destruct (Z.ltb_spec z 0).
  - destruct (ascii_dec "-" "-"); [|done]. rewrite Hr. cbn. f_equal. lia.
  - destruct (ascii_dec "+" "-"); [done|]. destruct (ascii_dec "+" "+"); [|done]. rewrite Hr. f_equal. lia.
Qed.

(** A leading digit [l], a fraction of 52 bits, an exponent. *)
Lemma hex_number l a z k : l = digit a → 0 ≤ a < 16 → 0 ≤ z < 2 ^ 52 → ∃ q,
  read_hex ("0"%char :: "x"%char :: l :: (if z =? 0 then [] else "."%char :: put_hex_digits 13 z) ++
    "p"%char :: (if k <? 0 then "-"%char else "+"%char) :: put_nat (Z.abs k)) = Some q ∧ (q == inject_Z (a * 2 ^ 52 + z) * p2 (k - 52))%Q.
Proof.
  intros -> Ha Hz. change (2 ^ 52) with (16 ^ Z.of_nat 13) in Hz.
  destruct (hex_digits_read 13 z a Hz) as (H1 & H2 & v & H3 & H4).
  set (t := (if k <? 0 then "-"%char else "+"%char) :: put_nat (Z.abs k)).
  assert (read_int t = Some k) as Ht by apply hex_exp. clearbody t.
  unfold read_hex. destruct (ascii_dec "0" "0"); [|done]. destruct (ascii_dec "x" "x"); [|done].
  assert (is_hex (digit a)) as Hd by (exists a; by apply hexdigit_digit).
  assert (digit a ≠ "."%char) as Hpt by (intros E; rewrite E in Hd; destruct Hd as [? Hd]; discriminate Hd).
  assert (digit a ≠ "p"%char) as Hpp by (intros E; rewrite E in Hd; destruct Hd as [? Hd]; discriminate Hd).
  set (fr := if z =? 0 then [] else "."%char :: put_hex_digits 13 z).
  rewrite app_comm_cons, cut_app.
  2:{ constructor; [done|]. subst fr. destruct (z =? 0); [constructor|]. constructor; [done|]. by apply hex_not. }
  assert (cut "." (digit a :: fr) = ([digit a], put_hex_digits 13 z)) as ->.
  { subst fr. destruct (Z.eqb_spec z 0) as [->|Hne].
    - apply cut_none. by apply Forall_singleton.
    - apply (cut_app "." [digit a]). by apply Forall_singleton. }
  cbn [app read_hexdigits]. rewrite hexdigit_digit by done. rewrite Z.mul_0_r, Z.add_0_l, H3, Ht.
  eexists. split; [done|]. change (inject_Z 2 ^ ?e)%Q with (p2 e). change (2 ^ 52) with (16 ^ Z.of_nat 13). rewrite <-H4.
  set (len := zlen (put_hex_digits 13 z)) in *. change 16 with (2 ^ 4). rewrite <-Z.pow_mul_r by lia.
  rewrite inject_Z_mult, <-p2_Z by lia. rewrite <-Qmult_assoc, <-p2_add. by replace (4 * (Z.of_nat 13 - len) + (k - 52)) with (k - 4 * len) by lia.
Qed.
Lemma hex_signed s t : read_hexnum (put_sign s ++ "0"%char :: t) = option_map (pair s) (read_hex ("0"%char :: t)).
Proof.
  destruct s; cbn [put_sign app read_hexnum].
  - by destruct (ascii_dec "-" "-").
  - by destruct (ascii_dec "0" "-").
Qed.
Lemma hex_exact x : valid64 x → finite_float x → exactly_hex (put_hex x) x.
Proof.
  intros Hx F. assert (∃ q, read_hexnum (put_hex x) = Some (sign_of x, q) ∧ (q == mag x)%Q) as (q & H1 & H2).
  { destruct x as [s| | |s m e]; try done.
    - destruct (hex_number "0" 0 0 0) as (q & H1 & H2); [done|lia|lia|]. exists q. cbn [put_hex sign_of app]. rewrite hex_signed.
      cbn [Z.eqb app] in H1. rewrite H1. split; [done|]. rewrite H2. cbn [mag]. change (inject_Z (0 * 2 ^ 52 + 0)) with 0%Q. ring.
    - apply valid_finite in Hx as (Hm & _ & _). cbn [put_hex sign_of app mag]. rewrite hex_signed.
      destruct (Z.leb_spec (2 ^ 52) (Zpos m)) as [Hn|Hn].
      + destruct (hex_number "1" 1 (Zpos m - 2 ^ 52) (e + 52)) as (q & H1 & H2); [done|lia|lia|].
        exists q. rewrite H1. split; [done|]. rewrite H2. replace (1 * 2 ^ 52 + (Zpos m - 2 ^ 52)) with (Zpos m) by lia. by replace (e + 52 - 52) with e by lia.
      + destruct (hex_number "0" 0 (Zpos m) (e + 52)) as (q & H1 & H2); [done|lia|lia|].
        exists q. rewrite H1. split; [done|]. rewrite H2. replace (0 * 2 ^ 52 + Zpos m) with (Zpos m) by lia. by replace (e + 52 - 52) with e by lia. }
  exists q. split; [done|]. rewrite value_mag. unfold signed. cbn [fst snd]. by destruct (sign_of x); rewrite H2.
Qed.
Lemma exactly_hex_inj w x y : valid64 x → valid64 y → finite_float x → finite_float y → exactly_hex w x → exactly_hex w y → x = y.
Proof.
  intros Hx Hy Fx Fy (q & H1 & H2) (q' & H1' & H2'). rewrite H1 in H1'. injection H1' as Es <-.
  apply value_inj; [done..|]. rewrite <-H2, <-H2'. by rewrite Es.
Qed.

Lemma text_hex (l : list (@connection b64)) (n fb sb born : Z) (st : fmt) :
  weighted l → indices_ok l → 0 ≤ n < 2 ^ 31 → Forall (λ x : @connection b64, x.1.1 < n) l → Forall (λ x : @connection b64, ∀ w, x.2 = Some w → valid64 w) l →
  stream_flags fb sb born → f_flags st = Z.lor born (2 ^ fb) ∨ f_flags st = Z.lor (Z.lor born (2 ^ fb)) (2 ^ sb) →
  ∃ g (cols : Z → list Z) (w : Z → Z → text) t st', ac_compress (add_all ac_new l) n = Ok (g, None) ∧ ac_put fb sb born st g = Ok (t, st') ∧
    read_matrix t = Some (seqZ 0 n ≫= (λ r, map (λ c, (r, c, w r c)) (cols r))) ∧
    (∀ r, 0 ≤ r < n → StronglySorted Z.lt (cols r) ∧ ∀ c, c ∈ cols r ↔ (r, c) ∈ map fst l) ∧
    (∀ r c, finite_float (sum_left (weights_at l r c)) → exactly_hex (w r c) (sum_left (weights_at l r c))).
Proof.
  intros Hw Hidx Hn Hr Hv Hf Hfl. destruct (text_exact l n fb sb born st true Hw Hidx Hn Hr Hv Hf Hfl) as (g & cols & t & st' & Hc & Hp & Ht & Hs & Hcols).
  exists g, cols, (λ r c, put_hex (sum_left (weights_at l r c))), t, st'. split_and!; try done. intros r c F. by apply hex_exact.
Qed.
