(** If-conversion: jlm/llvm/opt/IfConversion.cpp. *)
From stdpp Require Import base list gmap.
From Coq Require Import ZArith.
From Verif.LocalRegion Require Import Model.
From Verif.Unswitch Require Import Model.
Open Scope nat_scope.

(** BitValueRepresentation(nbits, int64_t), jlm/rvsdg/bitstring/value-representation.hpp:35-48, called with a uint64_t: None if util::Error is thrown; the unsigned reading of the bits *)
Definition int64 (v : Z) : Z := if decide (v < 2 ^ 63)%Z then v else (v - 2 ^ 64)%Z.
Definition constant (w v : Z) : option Z :=
  let s := int64 v in
  if decide (w = 0)%Z then None
  else if decide (w < 64 /\ s / 2 ^ w <> 0 /\ s / 2 ^ w <> -1)%Z then None else Some (s mod 2 ^ w)%Z.

(** the position of an argument *)
Definition arg_index (r : region) (y : oid) : option nat := d ← list_find (fun a => a = y) (rargs r); Some d.1.
(** IfConversion.cpp:96-189, one exit variable with results y0 and y1 of the subregions r0 and r1. [Crash]: a null pointer is dereferenced, an assertion fails, or util::Error is thrown *)
Inductive outcome := Skip | Diverted (news : list node) (y : oid) | Crash.
Definition convert_out (l : list node) (q : oid) (es : list oid) (r0 r1 : region) (y0 y1 : oid) (next : nat) : outcome :=
  match arg_index r0 y0, arg_index r1 y1 with
  | Some (S i0), Some (S i1) =>
      match es !! i0, es !! i1 with
      | Some o0, Some o1 =>
          if decide (o0 = o1) then Diverted [] o0
          else
            match owner l q with
            | Some (Node (KSimple (OMatch w mapping d)) (mo :: _) _) =>
                match mapping with
                | [(cv, cs)] =>
                    if decide (cs = d) then Crash
                    else if decide (w = 1 /\ cv = Z.of_nat cs)%Z then Diverted [Node (KSimple OSelect) [mo; o1; o0] [next]] next
                    else
                      match constant w cv with
                      | Some c =>
                          Diverted [Node (KSimple (OInt w c)) [] [next]; Node (KSimple (OEq w)) [next; mo] [S next];
                            Node (KSimple OSelect) [S next; if decide (cs = 0) then o0 else o1; if decide (cs = 0) then o1 else o0] [S (S next)]] (S (S next))
                      | None => Crash
                      end
                | _ => Skip
                end
            | _ => Diverted [Node (KSimple OCtlToInt) [q] [next]; Node (KSimple OSelect) [next; o1; o0] [S next]] (S next)
            end
      | _, _ => Crash
      end
  | Some _, Some _ => Crash (* the match content argument has no input *)
  | _, _ => Skip
  end.
(** IfConversion.cpp:90-191 HandleGammaNode, all exit variables (output, result of subregion 0, result of subregion 1): the new nodes, the outputs of the gamma node that are replaced, and what replaces them.
    The users are diverted at once at the end: the new nodes do not use outputs of the gamma node *)
Fixpoint convert_outs (l : list node) (q : oid) (es : list oid) (r0 r1 : region) (ts : list (oid * (oid * oid))) (next : nat) : option (list node * list oid * list oid) :=
  match ts with
  | [] => Some ([], [], [])
  | (x, (y0, y1)) :: ts =>
      match convert_out l q es r0 r1 y0 y1 next with
      | Skip => convert_outs l q es r0 r1 ts next
      | Diverted news y => '(n, olds, ys) ← convert_outs l q es r0 r1 ts (next + length news); Some (news ++ n, x :: olds, y :: ys)
      | Crash => None
      end
  end.
(** the node with index i *)
Definition convert_at (r : region) (i : nat) : option region :=
  match rnodes r !! i with
  | Some (Node (KGamma [r0; r1]) (q :: es) outs) =>
      '(news, olds, ys) ← convert_outs (rnodes r) q es r0 r1 (zip outs (zip (rres r0) (rres r1))) (region_bound r);
      let f := divert olds ys in Some (Region (rargs r) (map (divert_node f) (rnodes r) ++ news) (map f (rres r)))
  | _ => Some r
  end.
(** IfConversion.cpp:64-88 HandleRegion: the bodies of loops first, as they have nothing to do with the gamma nodes of this region. Subregions of gamma nodes are not visited *)
Fixpoint if_convert (r : region) : option region :=
  match r with
  | Region args nodes res =>
      nodes ← (fix go (l : list node) : option (list node) :=
        match l with
        | [] => Some []
        | Node k ins outs :: l => k ← match k with KTheta b => b ← if_convert b; Some (KTheta b) | _ => Some k end; l ← go l; Some (Node k ins outs :: l)
        end) nodes;
      foldl (fun r i => r ≫= fun r => convert_at r i) (Some (Region args nodes res)) (seq 0 (length nodes))
  end.
