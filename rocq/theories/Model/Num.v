(** Floating-point arithmetic as used by /repo ([double]): an operation record
    without laws, and the two instances the theorems are stated for. *)
From Verif.Model Require Export Base.
From Coq Require Import QArith Qcanon.
From Coq.Floats Require Import SpecFloat.
Open Scope Z_scope.

(** The operations on [double] that occur in /repo: TracerTofSolver.cpp:332-424,
    DerivedQuantities.cpp:37-283, AssembledConnections.cpp:239-256,
    Toolbox.cpp:113-132 and 222-238. *)
Class Num := {
  num : Type;
  nadd : num -> num -> num;
  nsub : num -> num -> num;
  nmul : num -> num -> num;
  ndiv : num -> num -> num;
  nopp : num -> num;
  nabs : num -> num;              (* std::fabs *)
  nltb : num -> num -> bool;      (* a < b  *)
  nleb : num -> num -> bool;      (* a <= b *)
  neqb : num -> num -> bool;      (* a == b *)
  nofZ : Z -> num;                (* nearest value to an integer literal *)
  ninf : num                      (* std::numeric_limits<double>::infinity() *)
}.

Section derived.
  Context {N : Num}.
  (** [0.0], e.g. TracerTofSolver.cpp:59. *)
  Definition n0 : num := nofZ 0.
  (** [1.0], e.g. DerivedQuantities.cpp:190. *)
  Definition n1 : num := nofZ 1.
  (** [std::min(a,b)] (TracerTofSolver.cpp:324): [(b < a) ? b : a]. *)
  Definition nmin (a b : num) : num := if nltb b a then b else a.
  (** [std::max(a,b)] (TracerTofSolver.cpp:417,420): [(a < b) ? b : a]. *)
  Definition nmax (a b : num) : num := if nltb a b then b else a.
  (** NaN test, used to decide where std::sort is defined (DerivedQuantities.cpp:119):
      only a NaN differs from itself. *)
  Definition nisnan (a : num) : bool := negb (neqb a a).
End derived.

(** * Exact arithmetic: canonical rationals with infinities and NaN.  An
    idealisation of [double] in /repo, e.g. TracerTofSolver.hpp:86-101; none of the
    definitions from here to [exact] models a function of /repo, the lines cited are
    uses.  IEEE-style special cases, except that there is a single unsigned zero
    ([x/0] is [+inf] for [x > 0]). *)
Inductive xq := Fin (q : Qc) | PInf | MInf | NaN.

(** Comparison of rationals, for [<] ([=]) as in TracerTofSolver.cpp:389 (:365). *)
Definition Qc_ltb (a b : Qc) : bool := if Qclt_le_dec a b then true else false.
(** As above (TracerTofSolver.cpp:152). *)
Definition Qc_leb (a b : Qc) : bool := negb (Qc_ltb b a).
(** As above (TracerTofSolver.cpp:365). *)
Definition Qc_eqb (a b : Qc) : bool := if Qc_eq_dec a b then true else false.

(** Unary minus (Toolbox.cpp:127). *)
Definition xopp (a : xq) : xq :=
  match a with Fin x => Fin (- x)%Qc | PInf => MInf | MInf => PInf | NaN => NaN end.
(** std::fabs (TracerTofSolver.cpp:417). *)
Definition xabs (a : xq) : xq :=
  match a with
  | Fin x => Fin (if Qc_ltb x 0%Qc then (- x)%Qc else x)
  | PInf | MInf => PInf
  | NaN => NaN
  end.
(** Addition (TracerTofSolver.cpp:339). *)
Definition xadd (a b : xq) : xq :=
  match a, b with
  | Fin x, Fin y => Fin (x + y)%Qc
  | NaN, _ | _, NaN => NaN
  | PInf, MInf | MInf, PInf => NaN
  | PInf, _ | _, PInf => PInf
  | MInf, _ | _, MInf => MInf
  end.
(** Subtraction (TracerTofSolver.cpp:417). *)
Definition xsub (a b : xq) : xq := xadd a (xopp b).
(** Infinity times a finite factor [x] (TracerTofSolver.cpp:376). *)
Definition xinf_scale (pos : bool) (x : Qc) : xq :=
  if Qc_eqb x 0%Qc then NaN
  else if Bool.eqb pos (Qc_ltb 0%Qc x) then PInf else MInf.
(** Multiplication (TracerTofSolver.cpp:347). *)
Definition xmul (a b : xq) : xq :=
  match a, b with
  | NaN, _ | _, NaN => NaN
  | Fin x, Fin y => Fin (x * y)%Qc
  | Fin x, PInf | PInf, Fin x => xinf_scale true x
  | Fin x, MInf | MInf, Fin x => xinf_scale false x
  | PInf, PInf | MInf, MInf => PInf
  | PInf, MInf | MInf, PInf => MInf
  end.
(** Division (TracerTofSolver.cpp:376). *)
Definition xdiv (a b : xq) : xq :=
  match a, b with
  | NaN, _ | _, NaN => NaN
  | Fin x, Fin y =>
      if Qc_eqb y 0%Qc then
        (if Qc_eqb x 0%Qc then NaN else if Qc_ltb 0%Qc x then PInf else MInf)
      else Fin (x / y)%Qc
  | Fin _, _ => Fin 0%Qc
  | PInf, Fin y => if Qc_ltb y 0%Qc then MInf else PInf
  | MInf, Fin y => if Qc_ltb y 0%Qc then PInf else MInf
  | _, _ => NaN
  end.
(** [<] (TracerTofSolver.cpp:389). *)
Definition xltb (a b : xq) : bool :=
  match a, b with
  | NaN, _ | _, NaN => false
  | Fin x, Fin y => Qc_ltb x y
  | MInf, MInf => false
  | MInf, _ => true
  | _, MInf => false
  | PInf, _ => false
  | _, PInf => true
  end.
(** [==] (TracerTofSolver.cpp:365). *)
Definition xeqb (a b : xq) : bool :=
  match a, b with
  | Fin x, Fin y => Qc_eqb x y
  | PInf, PInf | MInf, MInf => true
  | _, _ => false
  end.
(** [<=] (TracerTofSolver.cpp:152). *)
Definition xleb (a b : xq) : bool := xltb a b || xeqb a b.

(** The above as numbers for /repo (e.g. TracerTofSolver.hpp:86-101). *)
Definition exact : Num := {|
  num := xq; nadd := xadd; nsub := xsub; nmul := xmul; ndiv := xdiv;
  nopp := xopp; nabs := xabs; nltb := xltb; nleb := xleb; neqb := xeqb;
  nofZ := fun z => Fin (Q2Qc (inject_Z z)); ninf := PInf |}.

(** * IEEE 754 binary64: the type [double] of /repo, e.g. TracerTofSolver.hpp:86-101.
    Round-to-nearest-even ([Coq.Floats.SpecFloat],
    precision 53, emax 1024; a single NaN).  This is what [double] is on every
    platform OPM supports, given strict evaluation (no x87 excess precision, no
    fused multiply-add contraction, no -ffast-math). *)
Definition b64_prec : Z := 53.
(** As above (TracerTofSolver.hpp:86-101). *)
Definition b64_emax : Z := 1024.

(** As above (TracerTofSolver.hpp:86-101). *)
Definition b64 : Num := {|
  num := spec_float;
  nadd := SFadd b64_prec b64_emax;
  nsub := SFsub b64_prec b64_emax;
  nmul := SFmul b64_prec b64_emax;
  ndiv := SFdiv b64_prec b64_emax;
  nopp := SFopp; nabs := SFabs;
  nltb := SFltb; nleb := SFleb; neqb := SFeqb;
  nofZ := fun z => binary_normalize b64_prec b64_emax z 0 false;
  ninf := S754_infinity false |}.
