(** Specification of DisjointSet, independent of the model: the equivalence
    relation generated by a history of operations. *)
From stdpp Require Import gmap list.
From Verif.DisjointSet Require Import Model.

Section spec.
  Context {K : Type} `{Countable K}.

  (** Operations after the last [clear]. [ops] is oldest first. *)
  Definition since_clear (ops : list (op K)) : list (op K) :=
    fold_left (fun acc o => match o with OClear => [] | _ => acc ++ [o] end) ops [].

  (** x has been inserted (by insert or find_or_insert). *)
  Definition present (ops : list (op K)) (x : K) : Prop :=
    OInsert x ∈ since_clear ops ∨ OFindOrInsert x ∈ since_clear ops.

  (** The equivalence on present elements generated by the merge calls. *)
  Inductive connected (ops : list (op K)) : K → K → Prop :=
  | conn_refl x : present ops x → connected ops x x
  | conn_merge x y : OMerge x y ∈ since_clear ops → connected ops x y
  | conn_sym x y : connected ops x y → connected ops y x
  | conn_trans x y z : connected ops x y → connected ops y z → connected ops x z.

  (** The caller's obligation (JLM_ASSERT(contains(element)) in find): elements
      given to find/merge/iteration have been inserted before. *)
  Definition args (o : op K) : list K :=
    match o with
    | OFind x | OMembers x | ONMembers x => [x]
    | OMerge x y => [x; y]
    | _ => []
    end.
  Definition legal (ops : list (op K)) : Prop :=
    ∀ pre o post, ops = pre ++ o :: post → ∀ x, x ∈ args o → present pre x.

  (** What each call must answer, given the earlier history [ops]; [reps] is the
      set of representatives after the call (what begin()..end() iterates). *)
  Definition answer_ok (ops : list (op K)) (o : op K) (reps : gset K) (a : answer K) : Prop :=
    match o with
    | OInsert x => a = ASet x
    | OFind x => ∃ r, a = ASet r ∧ connected ops x r ∧ r ∈ reps
    | OFindOrInsert x => ∃ r, a = ASet r ∧ connected (ops ++ [o]) x r ∧ r ∈ reps
    | OMerge x y => ∃ r, a = ASet r ∧ connected (ops ++ [o]) x r ∧ r ∈ reps
    | OMembers x => ∃ l, a = AList l ∧ NoDup l ∧ ∀ y, y ∈ l ↔ connected ops x y
    | ONMembers x => ∃ l, a = ANat (length l) ∧ NoDup l ∧ ∀ y, y ∈ l ↔ connected ops x y
    | OClear => a = AUnit
    end.

End spec.
