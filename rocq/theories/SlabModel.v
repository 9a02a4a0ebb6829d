(* Model of the slab allocator of include/cache.h (lines 62-178).

   Simplifications:
   - an address is (number of the slab, offset from its start); malloc gives 16-byte
     aligned, pairwise disjoint slabs, so aligning an address aligns its offset;
   - malloc succeeds; a pointer has 8 bytes, so sizeof(slab_cache) is 16;
   - size_t and ptrdiff_t arithmetic on sizes wraps at 64 bits, offsets do not. *)
From Coq Require Import List ZArith Bool Arith.
From Verif Require Import Base.
Import ListNotations.
Local Open Scope Z_scope.

(* line 148 *)
Definition page_size : Z := 4194304 - 6 * 8.
(* lines 163-169 *)
Definition align (s : Z) : Z := u64 (s + (16 - s mod 16) mod 16).
Definition s64 (x : Z) : Z := let y := u64 x in if y <? 2 ^ 63 then y else y - 2 ^ 64.

(* One slab: the bytes obtained from malloc and the fill mark (line 151) as an offset;
   0 is the reset state mark == c (lines 76-79, 113, 125). *)
Record slab : Type := Slab { cap : Z; mark : Z }.
Definition cache := list slab.

(* lines 117-127 *)
Definition create : cache := [Slab page_size 0].
(* lines 109-116 *)
Definition reset (st : cache) : cache := map (fun c => Slab (cap c) 0) st.

(* lines 73-88: the first slab that seems to have room *)
Fixpoint fit (st : cache) (s len : Z) : cache * option (nat * Z) :=
  match st with
  | [] => ([], None)
  | c :: t =>
    let q := if mark c =? 0 then 16 else mark c in
    if 0 <=? s64 (s64 (s - q) - align len)
    then (Slab (cap c) (q + len + (16 - (q + len) mod 16) mod 16) :: t, Some (O, q))
    else let '(t', r) := fit t s len in
         (Slab (cap c) q :: t', match r with Some (i, q) => Some (S i, q) | None => None end)
  end.
(* line 92 on the last slab *)
Fixpoint mark_full (st : cache) (s : Z) : cache :=
  match st with
  | [] => []
  | [c] => [Slab (cap c) (align s)]
  | c :: t => c :: mark_full t s
  end.
(* lines 65-108; the result is the new state, the slab and the offset *)
Definition allocate (st : cache) (len : Z) : cache * nat * Z :=
  let s := u64 (align (Z.max len page_size) + 16) in
  match fit st s len with
  | (st, Some (i, q)) => (st, i, q)
  | (st, None) =>
    (mark_full st s ++ [Slab s (16 + len + (16 - (16 + len) mod 16) mod 16)], length st, 16)
  end.

(* A block handed out: slab, offset, size. *)
Definition block : Type := (nat * Z * Z)%type.
Inductive sop : Type := SAlloc (len : Z) | SReset.
(* The blocks handed out since the last reset, latest first. *)
Fixpoint srun (st : cache) (bs : list block) (ops : list sop) : cache * list block :=
  match ops with
  | [] => (st, bs)
  | SReset :: ops => srun (reset st) [] ops
  | SAlloc len :: ops => let '(st, i, q) := allocate st len in srun st ((i, q, len) :: bs) ops
  end.
(* The addresses returned for a sequence of sizes. *)
Fixpoint areas (st : cache) (lens : list Z) : cache * list (nat * Z) :=
  match lens with
  | [] => (st, [])
  | len :: lens => let '(st, i, q) := allocate st len in
                   let '(st, l) := areas st lens in (st, (i, q) :: l)
  end.
