(* Model of jlm/llvm/opt/AggregateAllocaSplitting.cpp: which allocas are split,
   and what the addresses of their elements become. *)
From stdpp Require Import base list.

(* Types, as far as the pass looks at them (types.hpp). *)
Inductive type := Scalar | Array | Struct (elements : list type).
Definition is_aggregate (t : type) : bool := match t with Scalar => false | _ => true end.

(* isSplitableType (AggregateAllocaSplitting.cpp:98-117): the loop returns at
   the first element of aggregate type. *)
Fixpoint splitable_type (t : type) : bool :=
  match t with
  | Struct ts => (fix elements (ts : list type) : bool :=
      match ts with
      | [] => true
      | t :: ts => if is_aggregate t then splitable_type t else elements ts
      end) ts
  | _ => false
  end.

(* The pointers of a function, numbered: an alloca of a struct of splitable
   type with count 1; a GetElementPtrOperation with constant indices; a pointer
   that has the value of one of several others (the output of a gamma node and
   the arguments of its subregions, the pre value and the output of a theta
   node, an IO barrier); the element of a split alloca; any other pointer. *)
Inductive def :=
| Alloca
| Gep (base : nat) (indices : list nat)
| Copies (from : list nat)
| Element (alloca : nat) (indices : list nat)
| Other.

(* accesses: the pointers that are the address of a load or store; escapes: the
   pointers that have another use (as the value of a store, an operand of a
   call or of another operation, a result of a lambda).  An IO barrier of the
   address of an alloca itself counts as such a use
   (AggregateAllocaSplitting.cpp:227-244). *)
Record prog := Prog { defs : list def; accesses : list nat; escapes : list nat }.

Definition mem (x : nat) (l : list nat) : bool := bool_decide (x ∈ l).

(* The outputs that the worklists of isSplitable and checkGetElementPtrUsers
   visit (AggregateAllocaSplitting.cpp:138-256, 280-405): all that a pointer is
   copied to.  The order of the visits does not matter. *)
Definition copied (p : prog) (vs : list nat) (v : nat) : bool :=
  mem v vs || match defs p !! v with Some (Copies us) => existsb (fun u => mem u vs) us | _ => false end.
Definition visit (p : prog) (vs : list nat) : list nat := filter (fun v => copied p vs v = true) (seq 0 (length (defs p))).
Definition reach (p : prog) (v : nat) : list nat := Nat.iter (length (defs p)) (visit p) [v].

(* The GetElementPtrOperation nodes found on the way (allocaConsumers). *)
Definition is_consumer (p : prog) (vs : list nat) (g : nat) : bool :=
  match defs p !! g with Some (Gep u _) => mem u vs | _ => false end.
Definition consumers (p : prog) (vs : list nat) : list nat := filter (fun g => is_consumer p vs g = true) (seq 0 (length (defs p))).

(* isSplitable (AggregateAllocaSplitting.cpp:119-270) with
   checkGetElementPtrUsers (272-407): the address of the alloca is used by
   GetElementPtrOperation nodes only, and theirs by loads and stores only. *)
Definition splitable (p : prog) (a : nat) : bool :=
  match defs p !! a with
  | Some Alloca =>
    let vs := reach p a in
    forallb (fun v => negb (mem v (accesses p)) && negb (mem v (escapes p))) vs &&
    forallb (fun g => let ws := reach p g in
                      forallb (fun v => negb (mem v (escapes p))) ws && bool_decide (consumers p ws = [])) (consumers p vs)
  | _ => false
  end.

(* splitAllocaNode (AggregateAllocaSplitting.cpp:538-582): the users of each
   consumer are diverted to the alloca of the element; a consumer that has no
   users any more stays as it is.  That elementAllocaMap has the indices of the
   consumer is taken for granted (std::unordered_map::at throws otherwise). *)
Definition split_def (p : prog) (a : nat) (d : def) : def :=
  match d with
  | Gep u idx => if mem u (reach p a) then Element a idx else d
  | d => d
  end.
(* splitAllocaNodes (AggregateAllocaSplitting.cpp:584-596): all allocas are
   traced before the first is split. *)
Definition split_all (p : prog) : prog :=
  Prog (fold_left (fun ds a => split_def p a <$> ds) (filter (fun a => splitable p a = true) (seq 0 (length (defs p)))) (defs p)) (accesses p) (escapes p).

(* createElementAllocaNodes (AggregateAllocaSplitting.cpp:498-536): the indices
   that get an alloca of their own; an array stays one element.  Every key starts
   with the index 0 of the pointer itself. *)
Fixpoint leaves (t : type) : list (list nat) :=
  match t with
  | Struct ts => (fix elements (i : nat) (ts : list type) : list (list nat) :=
      match ts with
      | [] => []
      | t :: ts => match t with Struct _ => cons i <$> leaves t | _ => [[i]] end ++ elements (S i) ts
      end) 0 ts
  | _ => []
  end.
Definition element_allocas (t : type) : list (list nat) := cons 0 <$> leaves t.
