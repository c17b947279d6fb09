(** C82: the characters written by operator<< for AssembledConnections. *)
From Coq Require Import Ascii String QArith Qabs.
From Coq.Floats Require Import SpecFloat.
From Verif.Model Require Import Base Num AssembledConnections Text.
From Verif.Spec Require Import GraphSpec TextSpec.
From Verif.Proofs Require Import Util AConn GraphProps Text.
Open Scope Z_scope.

(** One number: 17 significant digits; a reader gets the sign, and a number to which the
    double is nearer than any other double. *)
Theorem C82_number (x : spec_float) : valid64 x → stands_for (put_sci 16 x) x.
Proof. apply number_stands. Qed.
(** No text stands for two doubles. *)
Theorem C82_unique (w : text) (x y : spec_float) :
  valid64 x → valid64 y → stands_for w x → stands_for w y → x = y.
Proof. apply stands_for_inj. Qed.

(** A whole graph: one line for each entry, row by row, columns ascending. *)
Theorem C82_text (l : list (@connection b64)) (n fb sb born : Z) (st : fmt) :
  weighted l → indices_ok l → 0 ≤ n < 2 ^ 31 →
  Forall (λ x : @connection b64, x.1.1 < n) l →
  Forall (λ x : @connection b64, ∀ w, x.2 = Some w → valid64 w) l →
  stream_flags fb sb born → f_flags st = born ∨ f_flags st = Z.lor born (2 ^ sb) →
  ∃ g (cols : Z → list Z) (w : Z → Z → text) t st',
    ac_compress (add_all ac_new l) n = Ok (g, None) ∧ ac_put fb sb born st g = Ok (t, st') ∧
    read_matrix t = Some (seqZ 0 n ≫= (λ r, map (λ c, (r, c, w r c)) (cols r))) ∧
    (∀ r, 0 ≤ r < n → StronglySorted Z.lt (cols r) ∧ ∀ c, c ∈ cols r ↔ (r, c) ∈ map fst l) ∧
    (∀ r c, stands_for (w r c) (sum_left (weights_at l r c))).
Proof. apply text_scientific. Qed.

(** Nothing is lost: graphs of equally many rows with the same text are the same. *)
Theorem C82_lossless (l l' : list (@connection b64)) (n fb sb born : Z) (st : fmt) g g' t st1 st2 :
  weighted l → indices_ok l → Forall (λ x : @connection b64, x.1.1 < n) l →
  Forall (λ x : @connection b64, ∀ w, x.2 = Some w → valid64 w) l →
  weighted l' → indices_ok l' → Forall (λ x : @connection b64, x.1.1 < n) l' →
  Forall (λ x : @connection b64, ∀ w, x.2 = Some w → valid64 w) l' →
  0 ≤ n < 2 ^ 31 → stream_flags fb sb born → f_flags st = born ∨ f_flags st = Z.lor born (2 ^ sb) →
  ac_compress (add_all ac_new l) n = Ok (g, None) → ac_compress (add_all ac_new l') n = Ok (g', None) →
  ac_put fb sb born st g = Ok (t, st1) → ac_put fb sb born st g' = Ok (t, st2) →
  ac_start g = ac_start g' ∧ ac_neigh g = ac_neigh g' ∧ ac_weight g = ac_weight g'.
Proof. apply text_lossless. Qed.

(** A stream that was set to std::fixed: [setf] adds std::scientific to it, which means
    hexadecimal numbers.  Every finite weight comes out that way. *)
Theorem C82_fixed (l : list (@connection b64)) (n fb sb born : Z) (st : fmt) :
  weighted l → indices_ok l → 0 ≤ n < 2 ^ 31 →
  Forall (λ x : @connection b64, x.1.1 < n) l →
  Forall (λ x : @connection b64, ∀ w, x.2 = Some w → valid64 w) l →
  stream_flags fb sb born →
  f_flags st = Z.lor born (2 ^ fb) ∨ f_flags st = Z.lor (Z.lor born (2 ^ fb)) (2 ^ sb) →
  ∃ g (cols : Z → list Z) (w : Z → Z → text) t st',
    ac_compress (add_all ac_new l) n = Ok (g, None) ∧ ac_put fb sb born st g = Ok (t, st') ∧
    read_matrix t = Some (seqZ 0 n ≫= (λ r, map (λ c, (r, c, w r c)) (cols r))) ∧
    (∀ r, 0 ≤ r < n → StronglySorted Z.lt (cols r) ∧ ∀ c, c ∈ cols r ↔ (r, c) ∈ map fst l) ∧
    (∀ r c, finite_float (sum_left (weights_at l r c)) →
       hexadecimal (w r c) (sign_of (sum_left (weights_at l r c)))).
Proof. apply text_fixed. Qed.

(** ** Limits *)
Definition tenth : spec_float := S754_finite false 7205759403792794 (-56).
Definition tenth_up : spec_float := S754_finite false 7205759403792795 (-56).
Definition three_halves : spec_float := S754_finite true 6755399441055744 (-52).

(** The precision of 16 is needed: with 15 two doubles get the same text. *)
Theorem C82_precision_refuted : ∃ x y, valid64 x ∧ valid64 y ∧ x ≠ y ∧ put_sci 15 x = put_sci 15 y.
Proof. exists tenth, tenth_up. split_and!; [reflexivity|reflexivity|discriminate|]. vm_compute. reflexivity. Qed.

(** ** Cases *)
Definition str (s : string) : text := list_ascii_of_string s.
Definition nl : text := ["010"%char].
Definition ex_conns : list (@connection b64) := [(1, 0, Some three_halves); (0, 2, Some tenth); (0, 1, Some tenth_up)].
Definition ex_graph (n : Z) : @aconn b64 := match ac_compress (add_all ac_new ex_conns) n with Ok (g, _) => g | _ => ac_new end.
(** libstdc++: fixed 4, scientific 256, skipws | dec 4098. *)
Definition ex_new : fmt := mkFmt 6 4098.
Definition ex_fixed : fmt := mkFmt 6 4102.

Example C82_flags : stream_flags 2 8 4098.
Proof. split_and!; reflexivity || discriminate. Qed.
Example C82_conns : weighted ex_conns ∧ indices_ok ex_conns ∧ Forall (λ x : @connection b64, x.1.1 < 2) ex_conns ∧
  Forall (λ x : @connection b64, ∀ w, x.2 = Some w → valid64 w) ex_conns.
Proof.
  split_and!; repeat constructor; try done; intros w [= <-]; reflexivity.
Qed.
Lemma ex_ok n : 2 ≤ n → ac_compress (add_all ac_new ex_conns) n = Ok (ex_graph n, None).
Proof.
  intros Hn. destruct C82_conns as (H1 & H2 & H3 & _).
  destruct (compress_new b64 ex_conns n) as (g & Hg & _); [by right|done|lia| |].
  - eapply Forall_impl; [exact H3|]. intros x Hx. cbv beta in Hx. lia.
  - unfold ex_graph. by rewrite Hg.
Qed.
Example C82_written :
  ac_put 2 8 4098 ex_new (ex_graph 2) =
    Ok (str "0 1 1.0000000000000002e-01" ++ nl ++ str "0 2 1.0000000000000001e-01" ++ nl ++ str "1 0 -1.5000000000000000e+00" ++ nl, mkFmt 6 4354).
Proof. vm_compute. reflexivity. Qed.
Example C82_written_fixed :
  ac_put 2 8 4098 ex_fixed (ex_graph 2) =
    Ok (str "0 1 0x1.999999999999bp-4" ++ nl ++ str "0 2 0x1.999999999999ap-4" ++ nl ++ str "1 0 -0x1.8p+0" ++ nl, mkFmt 6 4358).
Proof. vm_compute. reflexivity. Qed.

Example C82_written_3 :
  ac_put 2 8 4098 ex_new (ex_graph 3) =
    Ok (str "0 1 1.0000000000000002e-01" ++ nl ++ str "0 2 1.0000000000000001e-01" ++ nl ++ str "1 0 -1.5000000000000000e+00" ++ nl, mkFmt 6 4354).
Proof. vm_compute. reflexivity. Qed.

(** Empty rows at the end leave no trace. *)
Theorem C82_rows_refuted : ∃ l n n' g g' t st,
  ac_compress (add_all ac_new l) n = Ok (g, None) ∧ ac_compress (add_all ac_new l) n' = Ok (g', None) ∧ n ≠ n' ∧
  (∃ st1, ac_put 2 8 4098 st g = Ok (t, st1)) ∧ (∃ st2, ac_put 2 8 4098 st g' = Ok (t, st2)) ∧
  ac_numrows g ≠ ac_numrows g'.
Proof.
  exists ex_conns, 2, 3, (ex_graph 2), (ex_graph 3).
  exists (str "0 1 1.0000000000000002e-01" ++ nl ++ str "0 2 1.0000000000000001e-01" ++ nl ++ str "1 0 -1.5000000000000000e+00" ++ nl), ex_new.
  split; [apply ex_ok; lia|]. split; [apply ex_ok; lia|]. split; [discriminate|].
  split; [exists (mkFmt 6 4354); exact C82_written|]. split; [exists (mkFmt 6 4354); exact C82_written_3|]. vm_compute. discriminate.
Qed.

Print Assumptions C82_number.
Print Assumptions C82_unique.
Print Assumptions C82_text.
Print Assumptions C82_lossless.
Print Assumptions C82_fixed.
Print Assumptions C82_precision_refuted.
Print Assumptions C82_rows_refuted.
