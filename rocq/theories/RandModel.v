(** Model of the integer part of /repo/src/math_random.cpp: generators, seeding, per-thread storage, hash, permutations. *)
From Verif Require Export Base Words.
Local Open Scope N_scope.

(** state of xoroshiro128+: two 64-bit words *)
Definition st2 := (N * N)%type.
(** rotation as written in the code: (x << a) | (x >> b) with a+b=64 *)
Definition rot (x a b : N) : N := N.lor (wshl x a) (wshr x b).
(** math_random.cpp:24-33 xoroshiro128plus_next: result and updated state *)
Definition xoro_out (s : st2) : N := wadd (fst s) (snd s).
Definition xoro_step (s : st2) : st2 :=
  let s0 := fst s in
  let s1 := N.lxor (snd s) s0 in
  (N.lxor (N.lxor (rot s0 55 9) s1) (wshl s1 14), rot s1 36 28).
(** math_random.cpp:37-51 xoroshiro128plus_jump *)
Definition JUMP : list N := [0xbeac0467eba5facb; 0xd86b048b86aa9922].
Definition xor2 (a b : st2) : st2 := (N.lxor (fst a) (fst b), N.lxor (snd a) (snd b)).
Definition jump_bit (w : N) (acc_st : st2 * st2) (b : nat) : st2 * st2 :=
  let (acc, s) := acc_st in
  ((if N.testbit w (N.of_nat b) then xor2 acc s else acc), xoro_step s).
Definition xoro_jump (s : st2) : st2 :=
  fst (fold_left (fun a w => fold_left (jump_bit w) (seq 0 64) a) JUMP ((0, 0), s)).

(** math_random.cpp:56-64 xorshift64star_next *)
Definition xs64_step (x : N) : N :=
  let x := N.lxor x (wshr x 12) in
  let x := N.lxor x (wshl x 25) in
  N.lxor x (wshr x 27).
Definition xs64_out (x : N) : N := wmul (xs64_step x) 2685821657736338717.    (* 0x2545f4914f6cdd1d *)

(** math_random.cpp:67-72 splitmix64_next: (output, new state) *)
Definition sm_mix (z : N) : N :=
  let z := wmul (N.lxor z (wshr z 30)) 13787848793156543929 in              (* 0xbf58476d1ce4e5b9 *)
  let z := wmul (N.lxor z (wshr z 27)) 10723151780598845931 in              (* 0x94d049bb133111eb *)
  N.lxor z (wshr z 31).
Definition sm_next (seed : N) : N * N := let z := wadd seed 11400714819323198485 in (sm_mix z, z).  (* 0x9e3779b97f4a7c15 *)

(** math_random.cpp:92-102 RandGenStorage::randomize: states of all threads, in order of the thread index.
    [time] is the value of time(NULL), used when the seed is zero *)
Fixpoint rand_states (n : nat) (prev : st2) : list st2 :=
  match n with O => [] | S n' => let s := xoro_jump prev in s :: rand_states n' s end.
Definition randomize (maxThreads : nat) (seed time : N) : list st2 :=
  let seed := if seed =? 0 then time else seed in
  let '(a, seed1) := sm_next seed in
  let '(b, _) := sm_next seed1 in
  rand_states maxThreads (a, b).
(** the flat storage: state[2*i], state[2*i+1] for thread i (math_random.cpp:79, 97-101) *)
Definition flatten (l : list st2) : list N := flat_map (fun s => [fst s; snd s]) l.

(** math_random.cpp:119-133 random(NULL) called in the thread [tid] when OpenMP is enabled: the two words at
    &state[min(tid, maxThreads-1)] are used and updated; the result is the 64-bit integer before conversion *)
Definition store (l : list N) (i : nat) (v : N) : list N := firstn i l ++ v :: skipn (S i) l.
Definition slot (maxThreads tid : nat) : nat := Nat.min tid (maxThreads - 1).
Definition draw (maxThreads tid : nat) (mem : list N) : res (N * list N) :=
  let i := slot maxThreads tid in
  match nth_error mem i, nth_error mem (i + 1) with
  | Some s0, Some s1 =>
      let s' := xoro_step (s0, s1) in
      Ok (xoro_out (s0, s1), store (store mem i (fst s')) (i + 1) (snd s'))
  | _, _ => UB
  end.

(** math_random.cpp:208-216 getRandomPermutation: [js] are the values static_cast<size_t>(random()*(i+1)), i=0,1,...
    The output array is written in place; the element output[i] read at j=i is uninitialised and immediately overwritten *)
Definition perm_step (out : list nat) (i j0 : nat) : res (list nat) :=
  let j := Nat.min j0 i in
  match nth_error out i, nth_error out j with
  | Some _, Some v =>
      let out := firstn i out ++ v :: skipn (S i) out in          (* output[i] = output[j] *)
      Ok (firstn j out ++ i :: skipn (S j) out)                   (* output[j] = i *)
  | _, _ => UB
  end.
Fixpoint perm_loop (js : list nat) (i : nat) (out : list nat) : res (list nat) :=
  match js with [] => Ok out | j :: js' => out' <- perm_step out i j ;; perm_loop js' (S i) out' end.
Definition getRandomPermutation (js : list nat) (out0 : list nat) : res (list nat) := perm_loop js 0 out0.

(** math_random.cpp:230-249 hash *)
Definition HM : N := 14313749767032793493.                                 (* 0xc6a4a7935bd1e995 *)
Definition hash_round (h k : N) : N :=
  let k := wmul k HM in
  let k := N.lxor k (wshr k 47) in
  let k := wmul k HM in
  wmul (N.lxor h k) HM.
(** len: int, converted to uint64_t when added to m; seed: unsigned int *)
Definition hash (data : list N) (seed : N) : N :=
  let h := N.lxor (wadd (N.of_nat (length data)) HM) seed in
  let h := fold_left hash_round data h in
  let h := N.lxor h (wshr h 47) in
  let h := wmul h HM in
  N.lxor h (wshr h 47).
