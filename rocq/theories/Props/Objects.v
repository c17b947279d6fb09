(** C72: Toolbox objects that are moved and destroyed. *)
From Coq Require Import String QArith Qcanon.
From Verif.Model Require Import Base Num OMap Containers Solution Toolbox ToolboxObjects.
From Verif.Spec Require Import ObjectsSpec.
From Verif.Proofs Require Import Util Objects.
From Verif.Props Require Import Toolbox.
Open Scope Z_scope.

(** Every program with any number of Toolbox objects behaves as if each object
    were a value of its own, which a move takes from one object to another.  It
    is undefined only if it uses an object that is gone, or calls a function of
    one that was moved from. *)
Theorem C72_as_values (N : Num) (ops : list tbop) :
  match tw_run tbworld0 ops, value_run [] ops with
  | Ok (w, obs), Ok (s, obs') => obs = obs' ∧ length (tw_objs w) = length s
  | Throw e, Throw e' => e = e'
  | UB, UB | AssertFail, AssertFail | NoFuel, NoFuel => True
  | _, _ => False
  end.
Proof.
  pose proof (run_ok ops tbworld0 [] wok0) as H. unfold both in H.
  destruct (tw_run tbworld0 ops) as [[w obs]|?| | |], (value_run [] ops) as [[s obs']|?| | |]; try done.
  destruct H as [H1 [H2 _ _]]. split; [done|]. by apply Forall2_length in H2.
Qed.

(** The memory of a Toolbox is owned by exactly one object as long as it is not
    deleted, and nothing is left when all objects are gone. *)
Theorem C72_no_leak (N : Num) (ops : list tbop) w obs :
  tw_run tbworld0 ops = Ok (w, obs) →
  (∀ a, allocated w a ↔ ∃ o, owns w o a) ∧
  (∀ o o' a, owns w o a → owns w o' a → o = o') ∧
  ((∀ o x, tw_objs w !! o = Some x → x = None) → ∀ a, ¬ allocated w a).
Proof.
  intros H. pose proof (run_ok ops tbworld0 [] wok0) as HR. unfold both in HR. rewrite H in HR.
  destruct (value_run [] ops) as [[s obs']|?| | |]; try done. destruct HR as [_ HW]. cbn [fst] in HW.
  assert (∀ a, allocated w a ↔ ∃ o, owns w o a) as Ha.
  { intros a. split; [apply HW|]. intros [o Ho]. by eapply owner_alloc. }
  split; [done|]. split; [apply HW|]. intros Hg a [o Ho]%Ha. by specialize (Hg o _ Ho).
Qed.

(** Assigning a living Toolbox to itself by a move changes nothing. *)
Theorem C72_self_move (N : Num) (w : tbworld) o p :
  tw_objs w !! o = Some (Some p) → tw_step w (TMoveAssign o o) = Ok (w, None).
Proof.
  intros H. cbn [tw_step]. unfold tw_release, tw_reset, tw_ptr. rewrite H. cbn [mbind res_bind fst snd tw_set tw_objs].
  rewrite list_lookup_insert by (by eapply lookup_lt_Some). cbn [mbind res_bind tw_delete]. unfold tw_set. cbn [tw_heap tw_objs].
  rewrite list_insert_insert, (list_insert_id _ _ _ H). by destruct w.
Qed.

(** A function of an object that was moved from must not be called. *)
Theorem C72_after_move (N : Num) (w w' : tbworld) src op c x :
  op = TMove src ∨ (∃ dst, dst ≠ src ∧ op = TMoveAssign dst src) →
  tw_step w op = Ok (w', x) → tw_step w' (TCall src c) = UB.
Proof.
  assert (∀ p, tw_ptr w src = Ok p → (src < length (tw_objs w))%nat) as Hs.
  { intros p. unfold tw_ptr. destruct (tw_objs w !! src) eqn:E; [|done]. intros _. by eapply lookup_lt_Some. }
  intros [->|(dst & Hne & ->)]; cbn [tw_step]; unfold tw_release; destruct (tw_ptr w src) as [p|?| | |] eqn:E; try done;
    specialize (Hs p eq_refl); cbn [mbind res_bind fst snd].
  - intros [= <- <-]. unfold tw_ptr. cbn [tw_objs tw_set]. rewrite lookup_app_l by (by rewrite insert_length). by rewrite list_lookup_insert.
  - destruct (tw_reset _ _ _) as [w1|?| | |] eqn:E1; try done. intros [= <- <-].
    assert (tw_objs w1 !! src = Some (Some None)) as Hn; [|unfold tw_ptr; by rewrite Hn].
    assert (∀ w2 q w3, tw_delete w2 q = Ok w3 → tw_objs w3 = tw_objs w2) as Hd.
    { intros w2 [a|] w3; cbn [tw_delete]; [|by intros [= ->]]. destruct (tw_heap w2 !! a) as [[t|]|]; try done. by intros [= <-]. }
    unfold tw_reset in E1. destruct (tw_ptr (tw_set w src None) dst) as [q|?| | |]; try done. cbn [mbind res_bind] in E1.
    rewrite (Hd _ _ _ E1). cbn [tw_set tw_objs]. rewrite list_lookup_insert_ne by done. by rewrite list_lookup_insert.
Qed.

(** A Toolbox set up in one object, moved, used next to another one, assigned to
    itself and to the other, gives the result of a Toolbox that stayed where it
    was; a call to the object it left is undefined. *)
Definition moves : list (@tbop exact) :=
  [TNew (graph_for (@ex_p exact)); TCall 0 (CPoreVolume (pb_pv ex_p)); TMove 0; TNew (graph_for (@cy_p exact));
   TCall 1 (CFlux (values_for ex_p 2)); TCall 2 (CPoreVolume (pb_pv cy_p)); TMoveAssign 1 1; TMoveAssign 2 1;
   TCall 2 (CInflow (pb_rates ex_p)); TDestroy 0; TCall 2 (CInject ex_ev ex_sets)].
Example C72_ex :
  match tw_run tbworld0 moves with
  | Ok (w, [ODone; ODone; ODone; ODone; OSol sol]) =>
      holds (sol_concentration sol "I1"%string) [(0, n1); (2, frac 2 3); (3, frac 2 3)] &&
      bool_decide (tw_objs w = [None; Some None; Some (Some 0%nat)]) &&
      match tw_step w (TCall 1 (CInflow [])) with UB => true | _ => false end
  | _ => false
  end = true.
Proof. vm_compute. reflexivity. Qed.

Print Assumptions C72_as_values.
Print Assumptions C72_no_leak.
Print Assumptions C72_self_move.
Print Assumptions C72_after_move.
