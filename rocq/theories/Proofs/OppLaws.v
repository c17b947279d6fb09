(** Negation, for both instances. *)
From Coq Require Import ZArith QArith Qcanon Reals Lra.
From Coq.Floats Require Import SpecFloat.
From Flocq Require Import Core.Core IEEE754.BinarySingleNaN.
From Verif.Proofs Require Import B64Bridge.
From Verif.Model Require Import Num.
From Verif.Proofs Require Import ExactNum QcLra OrdLaws B64Laws ToolboxSane.
Open Scope Z_scope.

Definition exact_opp_laws : opp_laws exact_laws.
Proof.
  constructor; [done|]. cbn [num nopp nltb exact]. rewrite exact_n0. intros [x| | |] _; try done. cbn.
  rewrite !Qc_ltb_true. intros. qclra.
Qed.

#[local] Existing Instance B64Bridge.Hprec.
#[local] Existing Instance B64Bridge.Hmax.

Lemma b64_ok_opp a : b64_ok a → b64_ok (SFopp a).
Proof. by destruct a. Qed.
Lemma SFopp_ltb a b : SFltb (SFopp a) (SFopp b) = SFltb b a.
Proof.
  destruct a as [[]|[]| |[] ma ea], b as [[]|[]| |[] mb eb]; try done; unfold SFltb, SFcompare; cbn.
  - rewrite (Z.compare_antisym ea eb). destruct (ea ?= eb); try done. cbn. change (Pos.compare_cont Eq mb ma) with (Pos.compare_cont (CompOpp Eq) mb ma).
    rewrite <-(Pos.compare_cont_antisym ma mb Eq).
    by destruct (Pos.compare_cont Eq ma mb).
  - rewrite (Z.compare_antisym ea eb). destruct (ea ?= eb); try done. cbn. change (Pos.compare_cont Eq mb ma) with (Pos.compare_cont (CompOpp Eq) mb ma).
    rewrite <-(Pos.compare_cont_antisym ma mb Eq).
    by destruct (Pos.compare_cont Eq ma mb).
Qed.

Definition b64_opp_laws : opp_laws b64_laws.
Proof.
  constructor; cbn [num nopp nltb b64 o_ok b64_laws].
  - apply b64_ok_opp.
  - intros a _ H. change (@n0 b64) with (S754_zero false) in *.
    assert (∀ x, SFltb (S754_zero false) x = SFltb (SFopp (S754_zero false)) x) as E by (by intros []).
    by rewrite E, SFopp_ltb.
Qed.
