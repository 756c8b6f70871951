(** Model of jlm/rvsdg/bitstring/value-representation.{hpp,cpp}
    (class BitValueRepresentation).

    A value is its data_ vector, least significant bit first ("[lsb ... msb]",
    value-representation.hpp:751).  The characters '0' '1' 'X' 'D' are a four
    element type; no other character can be stored (the constructors throw).
    [None] is a thrown exception, or (stated where it occurs) a violated
    precondition of the standard library.  Loops over index n = 0, 1, ... that
    touch only position n of each vector are structural recursions over the
    vectors. *)
From Coq Require Import ZArith List Bool.
Import ListNotations.
Local Open Scope Z_scope.

(** value-representation.hpp:20-27 *)
Inductive bit := B0 | B1 | BX | BD.
Definition bit_eqb (a b : bit) : bool :=
  match a, b with B0, B0 | B1, B1 | BX, BX | BD, BD => true | _, _ => false end.
Definition bits := list bit.

(** hpp:414-418 nbits *)
Definition nbits (v : bits) : nat := length v.

(** hpp:43-47: push '0' + (value & 1); value = value >> 1 (arithmetic shift) *)
Fixpoint push_bits (n : nat) (value : Z) : bits :=
  match n with
  | O => []
  | S n => (if Z.odd value then B1 else B0) :: push_bits n (Z.shiftr value 1)
  end.
(** hpp:35-48 BitValueRepresentation(size_t nbits, int64_t value) *)
Definition of_int (n : nat) (value : Z) : option bits :=
  if (n =? 0)%nat then None
  else if ((n <? 64)%nat && negb (Z.shiftr value (Z.of_nat n) =? 0)
           && negb (Z.shiftr value (Z.of_nat n) =? -1))%bool then None
  else Some (push_bits n value).
(** hpp:50-61 BitValueRepresentation(const char * s), on valid characters *)
Definition of_str (s : bits) : option bits :=
  match s with [] => None | _ => Some s end.
(** hpp:79-83 repeat *)
Definition repeat_bit (n : nat) (b : bit) : option bits := of_str (repeat b n).
(** hpp:95-111 create; precondition: at least one element *)
Definition create (l : list bits) : option bits :=
  match l with
  | [] => None
  | [v] => Some v
  | _ => Some (concat l)
  end.

(** hpp:114-136 lor *)
Definition lor (a b : bit) : bit :=
  match a with
  | B0 => b
  | B1 => B1
  | BX => match b with B1 => B1 | _ => BX end
  | BD => match b with B1 => B1 | BX => BX | _ => BD end
  end.
(** hpp:138-160 lxor *)
Definition lxor (a b : bit) : bit :=
  match a with
  | B0 => b
  | B1 => match b with B1 => B0 | B0 => B1 | _ => b end
  | BX => BX
  | BD => match b with BX => BX | _ => a end
  end.
(** hpp:162-166 lnot *)
Definition lnot (a : bit) : bit := lxor B1 a.
(** hpp:168-190 land *)
Definition land (a b : bit) : bit :=
  match a with
  | B0 => B0
  | B1 => b
  | BX => match b with B0 => B0 | _ => BX end
  | BD => match b with B0 => B0 | BX => BX | _ => BD end
  end.
(** hpp:192-196 carry *)
Definition carry (a b c : bit) : bit := lor (lor (land a b) (land a c)) (land b c).
(** hpp:198-202 add (on bits) *)
Definition add3 (a b c : bit) : bit := lxor (lxor a b) c.

(** hpp:335-339 sign: data_[nbits() - 1]; every object has at least one bit, the
    default is never used on those *)
Definition sign (v : bits) : bit := last v BX.
(** hpp:341-363 is_defined, is_known *)
Definition is_defined (v : bits) : bool := forallb (fun b => negb (bit_eqb b BX)) v.
Definition is_known (v : bits) : bool := forallb (fun b => negb (bit_eqb b BX) && negb (bit_eqb b BD)) v.
(** hpp:365-369 is_negative *)
Definition is_negative (v : bits) : bool := bit_eqb (sign v) B1.
(** hpp:371-377 concat, 744-748 Append *)
Definition concat_bits (a b : bits) : bits := a ++ b.
(** hpp:379-388 slice *)
Definition slice (v : bits) (low high : nat) : option bits :=
  if ((high <=? low)%nat || (nbits v <? high)%nat)%bool then None
  else of_str (firstn (high - low) (skipn low v)).
(** hpp:390-397 zext; 399-406 sext; 408-412 trunc *)
Definition zext (v : bits) (n : nat) : option bits :=
  if (n =? 0)%nat then Some v
  else match of_int n 0 with Some z => Some (concat_bits v z) | None => None end.
Definition sext (v : bits) (n : nat) : option bits :=
  if (n =? 0)%nat then Some v
  else match repeat_bit n (sign v) with Some s => Some (concat_bits v s) | None => None end.
Definition trunc (v : bits) (n : nat) : option bits := slice v 0 n.

(** cpp:24-43 and 60-80: the accumulation loop; pos_value is a uint64_t *)
Fixpoint accumulate (data : bits) (result pos_value : Z) : option Z :=
  match data with
  | [] => Some result
  | B0 :: data => accumulate data result ((pos_value * 2) mod 2 ^ 64)
  | B1 :: data => accumulate data (Z.lor result pos_value) ((pos_value * 2) mod 2 ^ 64)
  | _ :: _ => None
  end.
(** cpp:14-45 to_uint *)
Definition to_uint (v : bits) : option Z :=
  let limit := Nat.min (nbits v) 64 in
  if negb (forallb (fun b => bit_eqb b B0) (skipn limit v)) then None
  else accumulate (firstn limit v) 0 1.
(** conversion uint64_t -> int64_t *)
Definition to_int64 (u : Z) : Z := if u <? 2 ^ 63 then u else u - 2 ^ 64.
(** cpp:47-82 to_int: the second loop reads data_[n] for n < nbits(), else the sign bit *)
Definition to_int (v : bits) : option Z :=
  let sign_bit := sign v in
  let limit := Nat.min (nbits v) 63 in
  if negb (forallb (fun b => bit_eqb b sign_bit) (skipn limit v)) then None
  else option_map to_int64 (accumulate (firstn 64 v ++ repeat sign_bit (64 - nbits v)) 0 1).

(** hpp:432-444 ult; loop over n >= 1 *)
Fixpoint ult_loop (a b : bits) (v : bit) : bit :=
  match a, b with
  | x :: a, y :: b => ult_loop a b (land (lor (lnot x) y) (lor (land (lnot x) y) v))
  | _, _ => v
  end.
Definition same_width (a b : bits) : bool := (nbits a =? nbits b)%nat.
Definition ult (a b : bits) : option bit :=
  if negb (same_width a b) then None
  else match a, b with
       | x :: a, y :: b => Some (ult_loop a b (land (lnot x) y))
       | _, _ => None
       end.
(** t[t.nbits() - 1] = lnot(t.sign()) *)
Fixpoint flip_sign (v : bits) : bits :=
  match v with
  | [] => []
  | [x] => [lnot x]
  | x :: v => x :: flip_sign v
  end.
(** hpp:446-453 slt *)
Definition slt (a b : bits) : option bit := ult (flip_sign a) (flip_sign b).
(** hpp:455-467 ule *)
Fixpoint ule_loop (a b : bits) (v : bit) : bit :=
  match a, b with
  | x :: a, y :: b => ule_loop a b (land (land (lor (lnot x) y) (lor (lnot x) v)) (lor v y))
  | _, _ => v
  end.
Definition ule (a b : bits) : option bit :=
  if negb (same_width a b) then None else Some (ule_loop a b B1).
(** hpp:469-476 sle *)
Definition sle (a b : bits) : option bit := ule (flip_sign a) (flip_sign b).
(** hpp:478-489 ne *)
Fixpoint ne_loop (a b : bits) (v : bit) : bit :=
  match a, b with
  | x :: a, y :: b => ne_loop a b (lor v (lxor x y))
  | _, _ => v
  end.
Definition ne (a b : bits) : option bit :=
  if negb (same_width a b) then None else Some (ne_loop a b B0).
(** hpp:491-519 eq, sge, uge, sgt, ugt *)
Definition eq (a b : bits) : option bit := option_map lnot (ne a b).
Definition sge (a b : bits) : option bit := option_map lnot (slt a b).
Definition uge (a b : bits) : option bit := option_map lnot (ult a b).
Definition sgt (a b : bits) : option bit := option_map lnot (sle a b).
Definition ugt (a b : bits) : option bit := option_map lnot (ule a b).

(** hpp:521-537 add *)
Fixpoint add_loop (a b : bits) (c : bit) : bits :=
  match a, b with
  | x :: a, y :: b => add3 x y c :: add_loop a b (carry x y c)
  | _, _ => []
  end.
Definition add (a b : bits) : option bits :=
  if negb (same_width a b) then None else Some (add_loop a b B0).
(** hpp:539-579 land, lor, lxor on vectors *)
Fixpoint map2 (f : bit -> bit -> bit) (a b : bits) : bits :=
  match a, b with
  | x :: a, y :: b => f x y :: map2 f a b
  | _, _ => []
  end.
Definition land_v (a b : bits) : option bits :=
  if negb (same_width a b) then None else Some (map2 land a b).
Definition lor_v (a b : bits) : option bits :=
  if negb (same_width a b) then None else Some (map2 lor a b).
Definition lxor_v (a b : bits) : option bits :=
  if negb (same_width a b) then None else Some (map2 lxor a b).
(** hpp:581-585 lnot *)
Definition lnot_v (a : bits) : option bits :=
  match repeat_bit (nbits a) B1 with Some o => lxor_v a o | None => None end.
(** hpp:587-600 neg *)
Fixpoint neg_loop (a : bits) (c : bit) : bits :=
  match a with
  | [] => []
  | x :: a => let tmp := lxor x B1 in add3 tmp B0 c :: neg_loop a (carry tmp B0 c)
  end.
Definition neg (a : bits) : bits := neg_loop a B1.
(** hpp:602-606 sub *)
Definition sub (a b : bits) : option bits := add a (neg b).
(** hpp:608-616 shr *)
Definition shr (v : bits) (shift : nat) : option bits :=
  if (nbits v <=? shift)%nat then repeat_bit (nbits v) B0
  else match of_str (skipn shift v) with Some r => zext r shift | None => None end.
(** hpp:618-626 ashr *)
Definition ashr (v : bits) (shift : nat) : option bits :=
  if (nbits v <=? shift)%nat then repeat_bit (nbits v) (sign v)
  else match of_str (skipn shift v) with Some r => sext r shift | None => None end.
(** hpp:628-638 shl *)
Definition shl (v : bits) (shift : nat) : option bits :=
  if (shift =? 0)%nat then Some v
  else if (nbits v <=? shift)%nat then repeat_bit (nbits v) B0
  else match repeat_bit shift B0, slice v 0 (nbits v - shift) with
       | Some z, Some s => Some (concat_bits z s)
       | _, _ => None
       end.

(** hpp:223-232: the division loop.  The bits of the dividend arrive from the
    most significant end ([data] is the reversed dividend); the quotient, all
    zero initially, is written from its most significant end, so its written
    part is built by cons. remainder[0] = x writes the first bit. *)
Definition set0 (x : bit) (v : bits) : bits := match v with [] => [] | _ :: v => x :: v end.
Fixpoint udiv_loop (data : bits) (divisor quotient remainder : bits) : option (bits * bits) :=
  match data with
  | [] => Some (quotient, remainder)
  | x :: data =>
    match shl remainder 1 with
    | None => None
    | Some r =>
      let r := set0 x r in
      match uge r divisor with
      | None => None
      | Some B1 => match sub r divisor with
                   | None => None
                   | Some r => udiv_loop data divisor (B1 :: quotient) r
                   end
      | Some _ => udiv_loop data divisor (B0 :: quotient) r
      end
    end
  end.
(** hpp:204-233 udiv(divisor, quotient, remainder) with both results starting
    as zeros of the dividend's width (the callers at 640-702 do that) *)
Definition divide (a divisor : bits) : option (bits * bits) :=
  match of_int (nbits a) 0 with
  | None => None
  | Some zero => if negb (same_width divisor a) then None else udiv_loop (rev a) divisor [] zero
  end.
(** hpp:640-656 udiv, umod *)
Definition udiv (a b : bits) : option bits := option_map fst (divide a b).
Definition umod (a b : bits) : option bits := option_map snd (divide a b).
Definition abs_v (a : bits) : bits := if is_negative a then neg a else a.
(** hpp:658-679 sdiv *)
Definition sdiv (a b : bits) : option bits :=
  match divide (abs_v a) (abs_v b) with
  | None => None
  | Some (q, _) => Some (if xorb (is_negative a) (is_negative b) then neg q else q)
  end.
(** hpp:681-702 smod *)
Definition smod (a b : bits) : option bits :=
  match divide (abs_v a) (abs_v b) with
  | None => None
  | Some (_, r) => Some (if is_negative a then neg r else r)
  end.

(** hpp:235-253 mul(factor1, factor2, product).  Row i adds factor1[i] *
    factor2 to product[i ...]; position i is not touched by later rows, so the
    recursion peels it off.  The final carry of a row is dropped, as in the code. *)
Fixpoint mul_row (f : bit) (factor2 product : bits) (c : bit) : bits :=
  match factor2, product with
  | y :: factor2, p :: product =>
    let s := land f y in
    add3 s p c :: mul_row f factor2 product (carry s p c)
  | _, _ => product
  end.
Fixpoint mul_loop (factor1 factor2 product : bits) : bits :=
  match factor1 with
  | [] => product
  | x :: factor1 =>
    match mul_row x factor2 product B0 with
    | [] => []
    | p :: product => p :: mul_loop factor1 factor2 product
    end
  end.
(** hpp:704-714 mul *)
Definition mul (a b : bits) : option bits :=
  if negb (same_width a b) then None
  else match of_int (2 * nbits a) 0 with
       | None => None
       | Some product => slice (mul_loop a b product) 0 (nbits a)
       end.
(** hpp:716-742 umulh, smulh *)
Definition mulh (ext : bits -> nat -> option bits) (a b : bits) : option bits :=
  if negb (same_width a b) then None
  else match of_int (4 * nbits a) 0, ext a (nbits a), ext b (nbits a) with
       | Some product, Some f1, Some f2 => slice (mul_loop f1 f2 product) (nbits a) (2 * nbits a)
       | _, _, _ => None
       end.
Definition umulh := mulh zext.
Definition smulh := mulh sext.
