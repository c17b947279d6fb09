(** Model of opm/utility/numeric/RandomVector.{hpp,cpp}.  std::mt19937 and the
    distributions are parameters (standard library code). *)
From Verif.Model Require Export Base Num.

(** What the C++ standard library provides (RandomVector.cpp:41, 50, 67): generator state and its default
    seed; a normal distribution object with internal state; the (stateless)
    uniform integer distribution. *)
Record rng {N : Num} := mkRng {
  g_state : Type;
  g_seed : g_state;
  nd_state : Type;
  nd_make : num -> num -> nd_state;
  nd_draw : nd_state -> g_state -> num * nd_state * g_state;
  ui_draw : Z -> Z -> g_state -> Z * g_state
}.

Section rv.
Context {N : Num} (R : rng).

(** RandomVector.cpp:81-83: a new object holds a default-seeded generator. *)
Definition rv_new : g_state R := g_seed R.

(** RandomVector.cpp:55-57: the sampling loop of normal. *)
Fixpoint normal_loop (n : nat) (d : nd_state R) (g : g_state R) : list num * g_state R :=
  match n with
  | O => ([], g)
  | S n' =>
      let '(x, d', g') := nd_draw R d g in
      let '(l, g'') := normal_loop n' d' g' in
      (x :: l, g'')
  end.
(** RandomVector.cpp:46-60 and 88-94, normal: a fresh distribution object for
    every call. *)
Definition rv_normal (n : nat) (mean stdev : num) (g : g_state R) : list num * g_state R :=
  normal_loop n (nd_make R mean stdev) g.

(** RandomVector.cpp:62-77, integer. *)
Fixpoint integer_loop (n : nat) (lo hi : Z) (g : g_state R) : list Z * g_state R :=
  match n with
  | O => ([], g)
  | S n' =>
      let '(x, g') := ui_draw R lo hi g in
      let '(l, g'') := integer_loop n' lo hi g' in
      (x :: l, g'')
  end.
(** RandomVector.cpp:96-100, index. *)
Definition rv_index (n : nat) (maxIdx : Z) (g : g_state R) : list Z * g_state R :=
  integer_loop n 0 maxIdx g.

(** RandomVector.cpp:88-100: the public calls. *)
Inductive rv_call := RNormal (n : nat) (mean stdev : num) | RIndex (n : nat) (maxIdx : Z).
(** RandomVector.cpp:88-100, as one step function. *)
Definition rv_step (g : g_state R) (c : rv_call) : (list num + list Z) * g_state R :=
  match c with
  | RNormal n m s => let '(l, g') := rv_normal n m s g in (inl l, g')
  | RIndex n m => let '(l, g') := rv_index n m g in (inr l, g')
  end.
(** RandomVector.cpp:88-100: a sequence of calls on one object. *)
Fixpoint rv_run (g : g_state R) (cs : list rv_call) : list (list num + list Z) :=
  match cs with
  | [] => []
  | c :: cs' => let '(o, g') := rv_step g c in o :: rv_run g' cs'
  end.

(** A program using several RandomVector objects: every object owns its own
    generator (RandomVector.hpp:66-70, RandomVector.cpp:43, 81-83). *)
Inductive rvw_op := WNew | WCall (o : nat) (c : rv_call).
(** RandomVector.cpp:81-100: one operation. *)
Definition rvw_step (w : list (g_state R)) (op : rvw_op)
  : res (list (g_state R) * option (nat * (list num + list Z))) :=
  match op with
  | WNew => Ok (w ++ [rv_new], None)
  | WCall o c =>
      match w !! o with
      | Some g => let '(out, g') := rv_step g c in Ok (<[o := g']> w, Some (o, out))
      | None => UB
      end
  end.
(** RandomVector.cpp:81-100: a sequence of operations with the outputs, each
    tagged with the object it came from. *)
Fixpoint rvw_run (w : list (g_state R)) (ops : list rvw_op)
  : res (list (nat * (list num + list Z))) :=
  match ops with
  | [] => Ok []
  | op :: ops' =>
      r ← rvw_step w op;
      out ← rvw_run r.1 ops';
      Ok (match r.2 with Some o => o :: out | None => out end)
  end.

End rv.
