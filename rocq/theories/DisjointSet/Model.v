(** Model of jlm/util/disjointset.hpp (class DisjointSet<T>).

    A [Set] object is identified with its element: [values_] owns exactly one
    heap object per element (disjointset.hpp:280-290), so the pointer of a Set
    and its element determine each other. *)
From stdpp Require Import gmap list.

Section model.
  Context {K : Type} `{Countable K}.

  (** disjointset.hpp:92-176, fields size_, next_, parent_ of class Set.
      [value_] is the key of the map. *)
  Record setrec := SetRec { size_ : nat; next_ : K; parent_ : K }.

  (** disjointset.hpp:407-408, fields roots_ and values_ of DisjointSet.
      roots_ (an unordered_set of pointers) is a finite set of elements. *)
  Record ds := DS { values : gmap K setrec; roots : gset K }.

  (** disjointset.hpp:233, default constructor. *)
  Definition empty_ds : ds := DS ∅ ∅.

  (** Pointer writes through the mutable fields. *)
  Definition set_parent (p : K) (r : setrec) : setrec :=
    SetRec (size_ r) (next_ r) p.
  Definition set_next (n : K) (r : setrec) : setrec :=
    SetRec (size_ r) n (parent_ r).
  Definition set_size (n : nat) (r : setrec) : setrec :=
    SetRec n (next_ r) (parent_ r).

  (** disjointset.hpp:400-404, DisjointSet::contains *)
  Definition contains (s : ds) (x : K) : bool :=
    bool_decide (is_Some (values s !! x)).

  (** disjointset.hpp:119-134, the loop of Set::root() on the object [this].
      [child] and [parent] are the two local variables.  The assignment
      [parent_ = parent->parent_] writes the field of [this] (not of child), and
      [parent = parent_] reads that field back.  [None]: dangling pointer or
      fuel exhausted; proved impossible on reachable states. *)
  Fixpoint root_loop (fuel : nat) (m : gmap K setrec) (this child parent : K)
    : option (gmap K setrec * K) :=
    if decide (parent = child) then Some (m, child)
    else match fuel with
         | 0 => None
         | S fuel =>
             gp ← parent_ <$> m !! parent;
             let m' := alter (set_parent gp) this m in
             root_loop fuel m' this parent gp
         end.

  (** disjointset.hpp:119-134, Set::root(); fuel: the number of Set objects. *)
  Definition root (m : gmap K setrec) (this : K) : option (gmap K setrec * K) :=
    p ← parent_ <$> m !! this;
    root_loop (base.size m) m this this p.

  (** disjointset.hpp:276-287, insert(const T&). Returns the set of the element
      itself (not of its root). *)
  Definition insert (s : ds) (x : K) : ds * K :=
    if contains s x then (s, x)
    else (DS (<[x := SetRec 1 x x]> (values s)) ({[x]} ∪ roots s), x).

  (** disjointset.hpp:269-274, insert(const std::vector<T>&) *)
  Definition insert_all (s : ds) (l : list K) : ds :=
    fold_left (fun s x => (insert s x).1) l s.

  (** disjointset.hpp:235-238, DisjointSet(const std::vector<T>&) *)
  Definition create (l : list K) : ds := insert_all empty_ds l.

  (** disjointset.hpp:330-336, find; [None] also models the failed assertion
      that the element is contained. *)
  Definition find (s : ds) (x : K) : option (ds * K) :=
    '(m, r) ← root (values s) x;
    Some (DS m (roots s), r).

  (** disjointset.hpp:343-350, find_or_insert *)
  Definition find_or_insert (s : ds) (x : K) : option (ds * K) :=
    if contains s x then find s x else Some (insert s x).

  (** disjointset.hpp:355-384, merge *)
  Definition merge (s : ds) (e1 e2 : K) : option (ds * K) :=
    '(s1, root1) ← find s e1;
    '(s2, root2) ← find s1 e2;
    if decide (root1 = root2) then Some (s2, root1)
    else
      size1 ← size_ <$> values s2 !! root1;
      size2 ← size_ <$> values s2 !! root2;
      let '(root1, root2) :=
        if decide (size1 < size2) then (root2, root1) else (root1, root2) in
      n1 ← next_ <$> values s2 !! root1;
      n2 ← next_ <$> values s2 !! root2;
      (* std::swap(root1->next_, root2->next_) *)
      let m := alter (set_next n2) root1 (values s2) in
      let m := alter (set_next n1) root2 m in
      (* roots_.erase(root2); root2->parent_ = root1; root1->size_ = size1 + size2 *)
      let m := alter (set_parent root1) root2 m in
      let m := alter (set_size (size1 + size2)) root1 m in
      Some (DS m (roots s2 ∖ {[root2]}), root1).

  (** disjointset.hpp:320-324, clear *)
  Definition clear (s : ds) : ds := empty_ds.

  (** disjointset.hpp:308-312 nvalues, 314-318 nsets, 302-306 empty *)
  Definition nvalues (s : ds) : nat := base.size (values s).
  Definition nsets (s : ds) : nat := base.size (roots s).
  Definition is_empty (s : ds) : bool := bool_decide (nvalues s = 0).

  (** disjointset.hpp:160-164, Set::nmembers(): calls root(), hence updates. *)
  Definition nmembers (s : ds) (x : K) : option (ds * nat) :=
    '(s', r) ← find s x;
    n ← size_ <$> values s' !! r;
    Some (s', n).

  (** disjointset.hpp:170-174, Set::is_root *)
  Definition is_root (m : gmap K setrec) (x : K) : option bool :=
    p ← parent_ <$> m !! x; Some (bool_decide (p = x)).

  (** disjointset.hpp:56-63, MemberIterator::operator++ repeated until the end
      iterator (nullptr), collecting the visited elements. *)
  Fixpoint iterate (fuel : nat) (m : gmap K setrec) (node : K) : option (list K) :=
    match fuel with
    | 0 => None
    | S fuel =>
        b ← is_root m node;
        if (b : bool) then Some [node]
        else
          n ← next_ <$> m !! node;
          l ← iterate fuel m n;
          Some (node :: l)
    end.

  (** disjointset.hpp:148-158, Set::begin() .. Set::end() of the set object of
      [x]: starts at root()->next_. *)
  Definition members (s : ds) (x : K) : option (ds * list K) :=
    '(s', r) ← find s x;
    n ← next_ <$> values s' !! r;
    l ← iterate (base.size (values s')) (values s') n;
    Some (s', l).

  (** disjointset.hpp:290-300, begin()/end(): iterates over roots_. *)
  Definition representatives (s : ds) : list K := elements (roots s).

  (** A client program: the public mutating or querying calls, each returning
      an observable answer. *)
  Inductive op :=
  | OInsert (x : K)
  | OFind (x : K)
  | OFindOrInsert (x : K)
  | OMerge (x y : K)
  | OMembers (x : K)
  | ONMembers (x : K)
  | OClear.

  Inductive answer :=
  | ASet (r : K)
  | AList (l : list K)
  | ANat (n : nat)
  | AUnit.

  Definition step (s : ds) (o : op) : option (ds * answer) :=
    match o with
    | OInsert x => let '(s', r) := insert s x in Some (s', ASet r)
    | OFind x => '(s', r) ← find s x; Some (s', ASet r)
    | OFindOrInsert x => '(s', r) ← find_or_insert s x; Some (s', ASet r)
    | OMerge x y => '(s', r) ← merge s x y; Some (s', ASet r)
    | OMembers x => '(s', l) ← members s x; Some (s', AList l)
    | ONMembers x => '(s', n) ← nmembers s x; Some (s', ANat n)
    | OClear => Some (clear s, AUnit)
    end.

  Fixpoint run (s : ds) (ops : list op) : option (ds * list answer) :=
    match ops with
    | [] => Some (s, [])
    | o :: ops =>
        '(s1, a) ← step s o;
        '(s2, l) ← run s1 ops;
        Some (s2, a :: l)
    end.
End model.
Arguments setrec : clear implicits.
Arguments ds K {_ _}.
Arguments op : clear implicits.
Arguments answer : clear implicits.
