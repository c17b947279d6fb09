(** C85: RandomVector with the generator of the C++ standard and the distributions
    of libstdc++. *)
From Coq Require Import ZArith QArith Qcanon.
From Coq.Floats Require Import SpecFloat.
From Verif.Model Require Import Base Num Random RandomVector.
From Verif.Spec Require Import AccuracySpec RandomSpec.
From Verif.Proofs Require Import Util Random RandomDraws RandomNumbers.
Open Scope Z_scope.

(** ** The generator *)
(** A new object delivers the sequence of the C++ standard. *)
Theorem C85_words (x : nat → Z) k : mersenne x →
  (mt_draws k mt_new).1 = (λ j, tempered (x (j + 624)%nat)) <$> seq 0 k ∧ Forall word (mt_draws k mt_new).1.
Proof. intros M. split; [by rewrite (new_draws x M)|apply draws_ok, new_ok]. Qed.
Theorem C85_exists : ∃ x, mersenne x.
Proof. eexists. exact mersenne_exists. Qed.
(** What it delivers is known from 624 words on. *)
Theorem C85_predictable (s t : mt_state) k : length s = 624%nat → Forall word s → length t = 624%nat → Forall word t →
  (mt_draws 624 s).1 = (mt_draws 624 t).1 → (mt_draws (624 + k) s).1 = (mt_draws (624 + k) t).1.
Proof. intros H1 H2 H3 H4. apply predictable; by split. Qed.
(** Of any 624 words in a row one is not zero. *)
Theorem C85_alive k : Exists (λ w, w ≠ 0) (drop k (mt_draws (k + 624) mt_new).1).
Proof.
  rewrite draws_add. cbn [fst]. destruct (draws_ok k mt_new new_ok) as (_ & Hl & _). rewrite drop_app_alt by done. exact (alive k).
Qed.

(** ** Indices *)
(** [index(n, max)] delivers [n] numbers between 0 and [max]: those made of the
    next words, in order, rejected words left out. *)
Theorem C85_index m fuel n max s l s' : length s = 624%nat → Forall word s → max < 2 ^ 31 → std_index m fuel n max s = Ok (l, s') →
  length l = n ∧ Forall (λ v, 0 ≤ v ≤ max) l ∧
  ∃ k, (mt_draws k s).2 = s' ∧ l = omap (int_pick m (max + 1)) (mt_draws k s).1.
Proof.
  intros Hs Hw Hm H. unfold std_index, std_integer in H. destruct (Z.ltb_spec max 0) as [|H0]; [done|]. replace (max - 0 + 1) with (max + 1) in H by lia.
  destruct (loop_words _ _ _ _ _ _ _ _ H) as (k & E1 & E2 & E3). assert (l = omap (int_pick m (max + 1)) (mt_draws k s).1) as El.
  { rewrite E2. rewrite <-(list_fmap_id (omap _ _)) at 2. apply list_fmap_ext. intros i v _. cbn. lia. }
  split; [done|]. split; [|by exists k]. rewrite El. apply Forall_forall. intros v Hv. apply elem_of_list_omap in Hv as (w & Hw' & Ew).
  destruct (draws_ok k s (conj Hs Hw)) as (D & _). rewrite Forall_forall in D. pose proof (fa_range _ _ (pick_fair m (max + 1) ltac:(lia)) w v (D w Hw') Ew). lia.
Qed.
(** It must not be called with a negative maximum; otherwise it returns as soon as
    [n] words have been accepted. *)
Theorem C85_index_defined m fuel n max s :
  (max < 0 → std_index m fuel n max s = UB) ∧
  (0 ≤ max → (∃ l s', std_index m fuel n max s = Ok (l, s')) ∨ std_index m fuel n max s = NoFuel) ∧
  (∀ k, 0 ≤ max → (k ≤ fuel)%nat → (n ≤ length (omap (int_pick m (max + 1)) (mt_draws k s).1))%nat → ∃ l s', std_index m fuel n max s = Ok (l, s')).
Proof.
  unfold std_index, std_integer. split; [intros H; by destruct (Z.ltb_spec max 0); [|lia]|]. split; [intros H|intros k H Hk Hn]; destruct (Z.ltb_spec max 0); try lia.
  - apply loop_total.
  - replace (max - 0 + 1) with (max + 1) by lia. by apply (loop_found _ _ _ k).
Qed.
(** Every index is made of as many words as any other, and at most half of the
    words are rejected. *)
Theorem C85_fair m max : 0 ≤ max < 2 ^ 31 → fair (max + 1) (int_pick m (max + 1)).
Proof. intros H. apply pick_fair. lia. Qed.

(** ** Normal deviates *)
(** [normal(n, mean, stdev)] delivers [n] numbers, two for each accepted group of
    four words; for odd [n] the last of them is thrown away. *)
Theorem C85_normal (N : Num) nsqrt nlog fuel n mean stdev s l s' : std_normal nsqrt nlog fuel n mean stdev s = Ok (l, s') →
  nltb n0 stdev = true ∧ length l = n ∧
  ∃ k, (mt_draws (4 * k) s).2 = s' ∧
    let ds := omap (λ q : Z * Z * (Z * Z), polar nsqrt nlog q.1.1 q.1.2 q.2.1 q.2.2) (fours (mt_draws (4 * k) s).1) in
    length ds = ((n + 1) / 2)%nat ∧ l = (λ d, nadd (nmul d stdev) mean) <$> take n (unpair ds).
Proof.
  unfold std_normal. destruct (nltb n0 stdev) eqn:E; [|done]. intros H. split; [done|].
  destruct (normal_points nsqrt nlog fuel n mean stdev None s l s' H) as (k & A & B & C & D). cbv zeta in *. cbn [option_list app] in D.
  split; [done|]. exists k. split; [done|]. split; [|exact D]. etransitivity; [exact B|]. f_equal. cbn. lia.
Qed.
(** Two words make a fraction of [0,1), *)
Theorem C85_canonical w0 w1 : word w0 → word w1 →
  @canonical exact w0 w1 = Fin (fraction w0 w1) ∧ (0 <= fraction w0 w1)%Qc ∧ (fraction w0 w1 < 1)%Qc.
Proof. intros H0 H1. split; [by apply canonical_exact|by apply fraction_range]. Qed.
(** with doubles as well: nearly the same one, and never 1. *)
Theorem C85_canonical_b64 w0 w1 : word w0 → word w1 →
  ∃ c, q_of (@canonical b64 w0 w1) = Fin c ∧ (0 <= c)%Qc ∧ (c < 1)%Qc ∧ within 8 c (fraction w0 w1).
Proof. apply canonical_b64. Qed.
(** Four words make a point of the square, which is accepted in the unit disc
    without its centre; its two deviates are a multiple of it, of the length that
    the polar method prescribes. *)
Theorem C85_polar nsqrt nlog w0 w1 w2 w3 : word w0 → word w1 → word w2 → word w3 →
  let x := coordinate w0 w1 in let y := coordinate w2 w3 in let r := (x * x + y * y)%Qc in
  (@polar exact nsqrt nlog w0 w1 w2 w3 = None ↔ r = 0%Qc ∨ (1 < r)%Qc) ∧
  (∀ l q, r ≠ 0%Qc → (r <= 1)%Qc → nlog (Fin r) = Fin l → nsqrt (Fin (- Q2Qc 2 * l / r)%Qc) = Fin q → (q * q = - Q2Qc 2 * l / r)%Qc →
    ∃ a b, @polar exact nsqrt nlog w0 w1 w2 w3 = Some (Fin a, Fin b) ∧ (a = y * q)%Qc ∧ (b = x * q)%Qc ∧ (a * a + b * b = - Q2Qc 2 * l)%Qc).
Proof. apply polar_exact. Qed.
(** A sample may be drawn in pieces if all but the last have even length, *)
Theorem C85_normal_pieces (N : Num) nsqrt nlog fuel a b mean stdev s :
  std_normal nsqrt nlog fuel (2 * a + b) mean stdev s =
  (x ← std_normal nsqrt nlog fuel (2 * a) mean stdev s; y ← std_normal nsqrt nlog fuel b mean stdev x.2; Ok (x.1 ++ y.1, y.2)).
Proof. unfold std_normal. destruct (nltb n0 stdev); [apply draws_even|done]. Qed.
(** while one of odd length uses up one deviate more than it delivers. *)
Theorem C85_normal_odd (N : Num) nsqrt nlog fuel a mean stdev s l s' : std_normal nsqrt nlog fuel (2 * a + 1) mean stdev s = Ok (l, s') →
  ∃ d, std_normal nsqrt nlog fuel (2 * a + 2) mean stdev s = Ok (l ++ [d], s').
Proof. unfold std_normal. destruct (nltb n0 stdev); [apply draws_odd|done]. Qed.

(** ** C52 applies *)
Theorem C85_instance (N : Num) nsqrt nlog m fuel : let R := std_rng nsqrt nlog m fuel in
  rv_new R = mt_new ∧
  (∀ n max s l s', std_index m fuel n max s = Ok (l, s') → rv_index R n max s = (l, s')) ∧
  (∀ n mean stdev s l s', std_normal nsqrt nlog fuel n mean stdev s = Ok (l, s') → rv_normal R n mean stdev s = (l, s')).
Proof. split; [done|]. split; [apply index_instance|intros n mean stdev s l s'; apply normal_instance]. Qed.

(** ** Examples *)
(** The first words, and the one the C++ standard prescribes for tests: the
    10000th. *)
Example C85_first : (mt_draws 5 mt_new).1 = [3499211612; 581869302; 3890346734; 3586334585; 545404204].
Proof. vm_compute. reflexivity. Qed.
Example C85_tenthousandth : last (mt_draws (Z.to_nat 10000) mt_new).1 = Some 4123659995.
Proof. vm_compute. reflexivity. Qed.
(** Ten indices up to 5, by both methods; and a word that is rejected. *)
Definition indices m n max := match std_index m 10 n max mt_new with Ok (l, _) => l | _ => [] end.
Example C85_ex : indices Multiplying 10 5 = [4; 0; 5; 5; 0; 5; 5; 1; 3; 1] ∧ indices Scaling 10 5 = [4; 0; 5; 5; 0; 5; 5; 1; 3; 1] ∧
  int_pick Multiplying 6 0 = None ∧ int_pick Scaling 6 (2 ^ 32 - 1) = None ∧ int_pick Multiplying 6 (2 ^ 32 - 1) = Some 5.
Proof. repeat split; vm_compute; reflexivity. Qed.
(** Three deviates, with stand-ins for the logarithm and the square root: the
    fourth is thrown away, so that two and one are drawn alike, but not one and
    two. *)
Definition normals (ns : list nat) : list (list (@num exact)) :=
  (fix go ns s := match ns with [] => [] | n :: ns' => match @std_normal exact (λ x, x) (λ x, nopp n1) 10 n (nofZ 3) (nofZ 2) s with Ok (l, s') => l :: go ns' s' | _ => [] end end) ns mt_new.
Example C85_ex_normal : map length (normals [3%nat]) = [3%nat] ∧ concat (normals [2%nat; 1%nat]) = concat (normals [3%nat]) ∧
  match concat (normals [1%nat; 2%nat]), concat (normals [3%nat]) with [a; b; c], [a'; b'; c'] => neqb a a' && negb (neqb b b') && neqb b c' | _, _ => false end = true.
Proof. repeat split; vm_compute; reflexivity. Qed.
(** The largest words: their sum is rounded up, and 1 is replaced. *)
Example C85_ex_top : @canonical b64 (2 ^ 32 - 1) (2 ^ 32 - 1) = S754_finite false 9007199254740991 (-53) ∧ @canonical b64 0 (2 ^ 31) = S754_finite false 4503599627370496 (-53).
Proof. split; vm_compute; reflexivity. Qed.
(** The point (0, 1/2), with logarithm -1/2 and root 2; and a corner of the
    square. *)
Example C85_ex_polar : let nlog := λ _, Fin (Q2Qc (-1 # 2)) in let nsqrt := λ _, Fin (Q2Qc 2) in
  coordinate 0 (2 ^ 31) = 0%Qc ∧ coordinate 0 (3 * 2 ^ 30) = Q2Qc (1 # 2) ∧
  (Q2Qc 2 * Q2Qc 2 = - Q2Qc 2 * Q2Qc (-1 # 2) / Q2Qc (1 # 4))%Qc ∧
  match @polar exact nsqrt nlog 0 (2 ^ 31) 0 (3 * 2 ^ 30) with Some (a, b) => xeqb a (Fin 1%Qc) && xeqb b (Fin 0%Qc) | None => false end = true ∧
  @polar exact nsqrt nlog 0 0 0 0 = None ∧ @polar exact nsqrt nlog 0 (2 ^ 31) 0 (2 ^ 31) = None.
Proof. repeat split; try (apply Qc_is_canon; vm_compute; reflexivity); vm_compute; reflexivity. Qed.
Print Assumptions C85_words.
Print Assumptions C85_exists.
Print Assumptions C85_predictable.
Print Assumptions C85_alive.
Print Assumptions C85_index.
Print Assumptions C85_index_defined.
Print Assumptions C85_fair.
Print Assumptions C85_normal.
Print Assumptions C85_canonical.
Print Assumptions C85_canonical_b64.
Print Assumptions C85_polar.
Print Assumptions C85_normal_pieces.
Print Assumptions C85_normal_odd.
Print Assumptions C85_instance.
