(** Composite keys: /repo/include/boost/multi_index/composite_key.hpp *)
From Coq Require Import NArith.
From Verif Require Import Prelude.
Set Implicit Arguments.

(** boost::tuple as a cons list ending in null_type, of as many components as there are types or fewer: [F T] is
    the type of a component, [None] is tuples::null_type.  [ts] are the types of the components of the key; a type
    stands for all the types a component is compared with, as in a sum, so that functors with overloaded
    operator() are covered. *)
Fixpoint tup (F : Type -> Type) (ts : list Type) : Type :=
  match ts with [] => unit | T :: ts => option (F T * tup F ts) end.
Definition extractors (V : Type) := tup (fun T => V -> T).
Definition vals := tup (fun T => T).
Definition preds := tup (fun T => T -> T -> bool).
Definition hashes := tup (fun T => T -> N).
(** tuples::length *)
Fixpoint len {F} ts : tup F ts -> nat :=
  match ts with
  | [] => fun _ => 0
  | T :: ts => fun c => match c with Some (_, c) => S (len ts c) | None => 0 end
  end.

(** equal_ckey_ckey, 198-261.  When the predicates are too few the code does not compile; the value given here
    does not matter. *)
Fixpoint equal_ckey_ckey {V1 V2} ts : extractors V1 ts -> V1 -> extractors V2 ts -> V2 -> preds ts -> bool :=
  match ts with
  | [] => fun _ _ _ _ _ => true
  | T :: ts => fun c0 v0 c1 v1 eq =>
      match c0, c1 with
      | Some (h0, t0), Some (h1, t1) =>
          match eq with
          | Some (he, te) => if negb (he (h0 v0) (h1 v1)) then false else equal_ckey_ckey ts t0 v0 t1 v1 te
          | None => true
          end
      | _, _ => true
      end
  end.
(** equal_ckey_cval::compare(c,v,vc,eq), 263-337, 277-281, 297-307 *)
Fixpoint equal_ckey_cval {V} ts : extractors V ts -> V -> vals ts -> preds ts -> bool :=
  match ts with
  | [] => fun _ _ _ _ => true
  | T :: ts => fun c v vc eq =>
      match c, vc with
      | Some (h, t), Some (hv, tv) =>
          match eq with
          | Some (he, te) => if negb (he (h v) hv) then false else equal_ckey_cval ts t v tv te
          | None => true
          end
      | _, _ => true
      end
  end.
(** equal_ckey_cval::compare(vc,c,v,eq), 283-287, 309-319 *)
Fixpoint equal_cval_ckey {V} ts : vals ts -> extractors V ts -> V -> preds ts -> bool :=
  match ts with
  | [] => fun _ _ _ _ => true
  | T :: ts => fun vc c v eq =>
      match c, vc with
      | Some (h, t), Some (hv, tv) =>
          match eq with
          | Some (he, te) => if negb (he hv (h v)) then false else equal_cval_ckey ts tv t v te
          | None => true
          end
      | _, _ => true
      end
  end.
(** compare_ckey_ckey, 339-403 *)
Fixpoint compare_ckey_ckey {V1 V2} ts : extractors V1 ts -> V1 -> extractors V2 ts -> V2 -> preds ts -> bool :=
  match ts with
  | [] => fun _ _ _ _ _ => false
  | T :: ts => fun c0 v0 c1 v1 comp =>
      match c0, c1 with
      | Some (h0, t0), Some (h1, t1) =>
          match comp with
          | Some (hc, tc) =>
              if hc (h0 v0) (h1 v1) then true
              else if hc (h1 v1) (h0 v0) then false
              else compare_ckey_ckey ts t0 v0 t1 v1 tc
          | None => false
          end
      | _, _ => false
      end
  end.
(** compare_ckey_cval::compare(c,v,vc,comp), 405-481, 419-423, 439-450 *)
Fixpoint compare_ckey_cval {V} ts : extractors V ts -> V -> vals ts -> preds ts -> bool :=
  match ts with
  | [] => fun _ _ _ _ => false
  | T :: ts => fun c v vc comp =>
      match c, vc with
      | Some (h, t), Some (hv, tv) =>
          match comp with
          | Some (hc, tc) =>
              if hc (h v) hv then true
              else if hc hv (h v) then false
              else compare_ckey_cval ts t v tv tc
          | None => false
          end
      | _, _ => false
      end
  end.
(** compare_ckey_cval::compare(vc,c,v,comp), 425-429, 452-463 *)
Fixpoint compare_cval_ckey {V} ts : vals ts -> extractors V ts -> V -> preds ts -> bool :=
  match ts with
  | [] => fun _ _ _ _ => false
  | T :: ts => fun vc c v comp =>
      match c, vc with
      | Some (h, t), Some (hv, tv) =>
          match comp with
          | Some (hc, tc) =>
              if hc hv (h v) then true
              else if hc (h v) hv then false
              else compare_cval_ckey ts tv t v tc
          | None => false
          end
      | _, _ => false
      end
  end.

(** carry^=h+0x9e3779b9+(carry<<6)+(carry>>2) in std::size_t of [w] binary digits, 504, 540 *)
Definition combine (w carry h : N) : N :=
  let m := N.pow 2 w in
  N.lxor carry ((((h + 2654435769) mod m + N.shiftl carry 6 mod m) mod m + N.shiftr carry 2) mod m).
(** hash_ckey, 483-520 *)
Fixpoint hash_ckey {V} (w : N) ts : extractors V ts -> V -> hashes ts -> N -> N :=
  match ts with
  | [] => fun _ _ _ carry => carry
  | T :: ts => fun c v h carry =>
      match c with
      | Some (hc, tc) =>
          match h with
          | Some (hh, th) => hash_ckey w ts tc v th (combine w carry (hh (hc v)))
          | None => carry
          end
      | None => carry
      end
  end.
(** hash_cval, 522-556 *)
Fixpoint hash_cval (w : N) ts : vals ts -> hashes ts -> N -> N :=
  match ts with
  | [] => fun _ _ carry => carry
  | T :: ts => fun vc h carry =>
      match vc with
      | Some (hv, tv) =>
          match h with
          | Some (hh, th) => hash_cval w ts tv th (combine w carry (hh hv))
          | None => carry
          end
      | None => carry
      end
  end.

(** ** The functors of an index with a composite key.  Its keys composite_key_result are a reference to the key
    extractors, which are those of the index, and a reference to the element: composite_key::operator(), 627-630.
    The key of an element is therefore modelled as the element itself. *)
Section Functors.
Variable V : Type.
Variable ts : list Type.
Variable c : extractors V ts.
(** composite_key_compare, 1115-1139, 1151-1174 and 1186-1209; with values which are no tuples (1141-1149,
    1176-1184) the tuple has one component; operator< of composite_key_result (771-872) is the case where the
    comparisons are operator< of the components *)
Definition ck_less (comp : preds ts) (x y : V) : bool := compare_ckey_ckey ts c x c y comp.
Definition ck_less_tuple (comp : preds ts) (x : V) (q : vals ts) : bool := compare_ckey_cval ts c x q comp.
Definition tuple_less_ck (comp : preds ts) (q : vals ts) (x : V) : bool := compare_cval_ckey ts q c x comp.
(** composite_key_equal_to, 960-984, 986-1009 and 1011-1034; operator== (647-766) likewise *)
Definition ck_equal (eqs : preds ts) (x y : V) : bool := equal_ckey_ckey ts c x c y eqs.
Definition ck_equal_tuple (eqs : preds ts) (x : V) (q : vals ts) : bool := equal_ckey_cval ts c x q eqs.
Definition tuple_equal_ck (eqs : preds ts) (q : vals ts) (x : V) : bool := equal_cval_ckey ts q c x eqs.
(** composite_key_hash, 1290-1304 and 1306-1319 *)
Definition ck_hash (w : N) (hs : hashes ts) (x : V) : N := hash_ckey w ts c x hs 0.
Definition tuple_hash (w : N) (hs : hashes ts) (q : vals ts) : N := hash_cval w ts q hs 0.
End Functors.
