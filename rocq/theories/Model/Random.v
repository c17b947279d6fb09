(** RandomVector with the generator of the C++ standard and the distributions of
    libstdc++, which RandomVector.v leaves open.  A default-constructed
    std::mt19937 is fixed by the standard ([rand.eng.mers], [rand.predef]);
    std::uniform_int_distribution and std::normal_distribution are not, and are
    those of libstdc++ (bits/uniform_int_dist.h, bits/random.tcc). *)
From Verif.Model Require Export Base Num.

(** RandomVector.cpp:41 and 43, std::mt19937: its state, the last 624 words. *)
Definition mt_state := list Z.
(** RandomVector.cpp:43 and 81-83: the words that follow each other in the default seeding. *)
Definition mt_seed_next (i x : Z) : Z := (1812433253 * Z.lxor x (Z.shiftr x 30) + i) mod 2 ^ 32.
(** RandomVector.cpp:43 and 81-83: [k] seed words from word [i] on. *)
Fixpoint mt_fill (k : nat) (i x : Z) : mt_state :=
  match k with
  | O => []
  | S k' => x :: mt_fill k' (i + 1) (mt_seed_next (i + 1) x)
  end.
(** RandomVector.cpp:81-83: a new object, default seed 5489. *)
Definition mt_new : mt_state := mt_fill 624 0 5489.

(** RandomVector.cpp:41: upper bit of one word, lower bits of another. *)
Definition mt_join (x0 x1 : Z) : Z := Z.lor (Z.land x0 2147483648) (Z.land x1 2147483647).
(** RandomVector.cpp:41: the word that follows, from those 624, 623 and 227 before. *)
Definition mt_twist (x0 x1 xm : Z) : Z :=
  let y := mt_join x0 x1 in
  Z.lxor xm (Z.lxor (Z.shiftr y 1) (if Z.odd y then 2567483615 else 0)).
(** RandomVector.cpp:41: the tempering of a word. *)
Definition mt_temper (x : Z) : Z :=
  let y1 := Z.lxor x (Z.shiftr x 11) in
  let y2 := Z.lxor y1 (Z.land (Z.shiftl y1 7) 2636928640) in
  let y3 := Z.lxor y2 (Z.land (Z.shiftl y2 15) 4022730752) in
  Z.lxor y3 (Z.shiftr y3 18).
(** RandomVector.cpp:56 and 73, [gen_()]. *)
Definition mt_draw (s : mt_state) : Z * mt_state :=
  let x := mt_twist (nth 0 s 0) (nth 1 s 0) (nth 397 s 0) in
  (mt_temper x, tail s ++ [x]).
(** RandomVector.cpp:56 and 73: [k] words. *)
Fixpoint mt_draws (k : nat) (s : mt_state) : list Z * mt_state :=
  match k with
  | O => ([], s)
  | S k' => let '(w, s1) := mt_draw s in let '(ws, s2) := mt_draws k' s1 in (w :: ws, s2)
  end.

(** RandomVector.cpp:67: how libstdc++ makes integers of words, before and since
    version 11 of gcc. *)
Inductive int_method := Scaling | Multiplying.
(** RandomVector.cpp:67 and 73: the number below [r] made of a word, unless the
    word is rejected. *)
Definition int_pick (m : int_method) (r w : Z) : option Z :=
  match m with
  | Scaling =>
      let scaling := (2 ^ 32 - 1) / r in
      let past := r * scaling in
      if w <? past then Some (w / scaling) else None
  | Multiplying =>
      let product := w * r in
      let low := product mod 2 ^ 32 in
      if low <? r
      then let threshold := ((- r) mod 2 ^ 32) mod r in
           if low <? threshold then None else Some (product / 2 ^ 32)
      else Some (product / 2 ^ 32)
  end.
(** RandomVector.cpp:73, [distr(gen_)]: words are drawn until one is accepted. *)
Fixpoint int_next (m : int_method) (fuel : nat) (r : Z) (s : mt_state) : res (Z * mt_state) :=
  match fuel with
  | O => NoFuel
  | S f =>
      let '(w, s1) := mt_draw s in
      match int_pick m r w with Some v => Ok (v, s1) | None => int_next m f r s1 end
  end.
(** RandomVector.cpp:72-74, the loop of integer. *)
Fixpoint int_loop (m : int_method) (fuel n : nat) (lo r : Z) (s : mt_state) : res (list Z * mt_state) :=
  match n with
  | O => Ok ([], s)
  | S n' =>
      x ← int_next m fuel r s;
      y ← int_loop m fuel n' lo r x.2;
      Ok ((lo + x.1) :: y.1, y.2)
  end.
(** RandomVector.cpp:62-77, integer.  A distribution may only be made if
    [min <= max], whether numbers are drawn from it or not. *)
Definition std_integer (m : int_method) (fuel n : nat) (min max : Z) (s : mt_state) : res (list Z * mt_state) :=
  if max <? min then UB else int_loop m fuel n min (max - min + 1) s.
(** RandomVector.cpp:96-100, index. *)
Definition std_index (m : int_method) (fuel n : nat) (maxIdx : Z) (s : mt_state) : res (list Z * mt_state) :=
  std_integer m fuel n 0 maxIdx s.

Section normal.
Context {N : Num} (nsqrt nlog : num -> num).

(** RandomVector.cpp:56, std::generate_canonical: two words make a number of
    [0,1). *)
Definition canonical (w0 w1 : Z) : num :=
  let sum := nadd (nadd n0 (nmul (nofZ w0) n1)) (nmul (nofZ w1) (nofZ (2 ^ 32))) in
  let ret := ndiv sum (nofZ (2 ^ 64)) in
  if nleb n1 ret then ndiv (nofZ (2 ^ 53 - 1)) (nofZ (2 ^ 53)) else ret.
(** RandomVector.cpp:56: a number of [-1,1). *)
Definition centred (w0 w1 : Z) : num := nsub (nmul (nofZ 2) (canonical w0 w1)) n1.
(** RandomVector.cpp:56, the polar method: four words make a point, which is
    rejected if it is outside of the unit disc or its centre; otherwise two
    deviates are made, of which the first is used first. *)
Definition polar (w0 w1 w2 w3 : Z) : option (num * num) :=
  let x := centred w0 w1 in
  let y := centred w2 w3 in
  let r2 := nadd (nmul x x) (nmul y y) in
  if nltb n1 r2 || neqb r2 n0 then None
  else
    let mult := nsqrt (ndiv (nmul (nofZ (-2)) (nlog r2)) r2) in
    Some (nmul y mult, nmul x mult).
(** RandomVector.cpp:56: points are drawn until one is accepted. *)
Fixpoint polar_next (fuel : nat) (s : mt_state) : res (num * num * mt_state) :=
  match fuel with
  | O => NoFuel
  | S f =>
      let '(w0, s0) := mt_draw s in let '(w1, s1) := mt_draw s0 in
      let '(w2, s2) := mt_draw s1 in let '(w3, s3) := mt_draw s2 in
      match polar w0 w1 w2 w3 with Some d => Ok (d, s3) | None => polar_next f s3 end
  end.
(** RandomVector.cpp:56, [distr(gen_)]: every other time the second deviate of
    the previous point is used. *)
Definition normal_next (fuel : nat) (mean stdev : num) (saved : option num) (s : mt_state) : res (num * option num * mt_state) :=
  match saved with
  | Some d => Ok (nadd (nmul d stdev) mean, None, s)
  | None => p ← polar_next fuel s; Ok (nadd (nmul p.1.1 stdev) mean, Some p.1.2, p.2)
  end.
(** RandomVector.cpp:55-57, the loop of normal. *)
Fixpoint normal_draws (fuel n : nat) (mean stdev : num) (saved : option num) (s : mt_state) : res (list num * mt_state) :=
  match n with
  | O => Ok ([], s)
  | S n' =>
      x ← normal_next fuel mean stdev saved s;
      y ← normal_draws fuel n' mean stdev x.1.2 x.2;
      Ok (x.1.1 :: y.1, y.2)
  end.
(** RandomVector.cpp:46-60 and 88-94, normal: a distribution may only be made if
    the standard deviation is positive; every call makes its own. *)
Definition std_normal (fuel n : nat) (mean stdev : num) (s : mt_state) : res (list num * mt_state) :=
  if nltb n0 stdev then normal_draws fuel n mean stdev None s else UB.
End normal.
