(** Outcomes, checked arrays, loops and C integer conversions used by the
    model of /repo.  These definitions model C/C++ language semantics, not a
    particular file of /repo. *)
From Coq Require Export ZArith Bool.
From stdpp Require Export base list list_numbers.
Open Scope Z_scope.

(** C++ exceptions thrown somewhere in /repo (all derive from std::exception):
    explicitly, e.g. AssembledConnections.cpp:136 and :418, Toolbox.cpp:94 and :145,
    or by the container when a negative size is converted to size_t
    (TracerTofSolver.cpp:59-60, DerivedQuantities.cpp:109, AssembledConnections.cpp:350). *)
Inductive exn := LogicError | RuntimeError | InvalidArgument | LengthError.

(** Outcome of running a piece of code.
    [UB]         : undefined behaviour (out-of-bounds access, null dereference,
                   signed overflow, invalid comparator), e.g. of the unchecked
                   accesses at tarjan.c:141-151 or DerivedQuantities.cpp:216;
    [AssertFail] : an [assert] of the source fails (a debug build aborts there;
                   with NDEBUG the code would run on);
    [NoFuel]     : the step budget of an unbounded loop is exhausted
                   (tarjan.c:269-291, TracerTofSolver.cpp:404-422). *)
Inductive res (A : Type) : Type :=
| Ok (a : A)
| Throw (e : exn)
| UB
| AssertFail
| NoFuel.
Arguments Ok {A} a.
Arguments Throw {A} e.
Arguments UB {A}.
Arguments AssertFail {A}.
Arguments NoFuel {A}.

(** A statement that completes normally, e.g. AssembledConnections.cpp:44-45. *)
Global Instance res_ret : MRet res := fun A a => Ok a.
(** Sequencing of statements: an abnormal outcome ends the function, as there is
    no handler anywhere in the library; e.g. AssembledConnections.cpp:417-424. *)
Global Instance res_bind : MBind res := fun A B f m =>
  match m with
  | Ok a => f a
  | Throw e => Throw e
  | UB => UB
  | AssertFail => AssertFail
  | NoFuel => NoFuel
  end.

(** [assert (b)] of <cassert>, e.g. TracerTofSolver.cpp:361-362, tarjan.c:142. *)
Definition assert_ (b : bool) : res unit := if b then Ok tt else AssertFail.

(** [v[i]] for a vector/array, e.g. DerivedQuantities.cpp:216, tarjan.c:189:
    undefined behaviour outside the array. *)
Definition zget {A} (l : list A) (i : Z) : res A :=
  if i <? 0 then UB
  else match l !! Z.to_nat i with Some x => Ok x | None => UB end.

(** [v[i] = x], e.g. AssembledConnections.cpp:303-312, tarjan.c:214-219. *)
Definition zset {A} (l : list A) (i : Z) (x : A) : res (list A) :=
  if i <? 0 then UB
  else match l !! Z.to_nat i with
       | Some _ => Ok (<[Z.to_nat i := x]> l)
       | None => UB
       end.

(** [v.size()], e.g. TracerTofSolver.cpp:211. *)
Definition zlen {A} (l : list A) : Z := Z.of_nat (length l).

(** [v.back()], e.g. TracerTofSolver.cpp:146 and :277: undefined on an empty vector. *)
Definition zback {A} (l : list A) : res A := zget l (zlen l - 1).

(** [v.resize(n, d)], e.g. TracerTofSolver.cpp:168-172, :224-226: keep a prefix, or
    extend with copies of [d]. *)
Definition resize_ {A} (n : nat) (d : A) (l : list A) : list A :=
  take n l ++ replicate (n - length l) d.

(** Range-based / counting loops, e.g. TracerTofSolver.cpp:344-349,
    AssembledConnections.cpp:218-231: left to right, state threaded through. *)
Fixpoint foldM {A S} (f : S -> A -> res S) (s : S) (l : list A) : res S :=
  match l with
  | [] => Ok s
  | x :: l' => s' ← f s x; foldM f s' l'
  end.

(** [for (i = lo; i < hi; ++i)], e.g. tarjan.c:69, TracerTofSolver.cpp:412-421. *)
Definition forZ {S} (lo hi : Z) (f : S -> Z -> res S) (s : S) : res S :=
  foldM f s (seqZ lo (hi - lo)).

(** Half-open slice [b,e) of an array, read element by element, e.g.
    AssembledConnections.cpp:451-460, tarjan.c:421-438: undefined unless
    0 <= b <= e <= size. *)
Definition zslice {A} (l : list A) (b e : Z) : res (list A) :=
  if (0 <=? b) && (b <=? e) && (e <=? zlen l)
  then Ok (take (Z.to_nat (e - b)) (drop (Z.to_nat b) l))
  else UB.

(** Conversion to [size_t] (64 bit, wraps), e.g. AssembledConnections.cpp:267, :295. *)
Definition to_size (z : Z) : Z := z mod 2 ^ 64.
(** Conversion to [int] (32 bit, wraps: what gcc/clang define for the
    implementation-defined narrowing), e.g. TracerTofSolver.cpp:146, :225. *)
Definition to_int (z : Z) : Z := (z + 2 ^ 31) mod 2 ^ 32 - 2 ^ 31.
(** The largest [int]; bounds the addition at AssembledConnections.cpp:184. *)
Definition int_max : Z := 2 ^ 31 - 1.

(** Signed addition on [int], e.g. AssembledConnections.cpp:184, 191: overflow is
    undefined. *)
Definition int_add (a b : Z) : res Z :=
  let r := a + b in
  if (- 2 ^ 31 <=? r) && (r <=? int_max) then Ok r else UB.
