(* Model of Tableau.count_semistandard and SymmetricPolynomial.schur with their caches.
   cached_value (cached.py:3-11) hands out the very object stored in the cache, and that object is
   a defaultdict: looking up a missing key stores 0 under it.  The argument tuple of a call
   identifies the object, so the state is a dictionary from argument tuples to dictionaries.
   Every operation returns the new state also when it raises, as in Python. *)
From Coq Require Import List ZArith Lia Bool.
From Verif Require Import PyBase FinSum M_Partitions M_Rref M_Strips M_Vectors M_Semistandard M_Symmetric.
Import ListNotations.
Local Open Scope Z_scope.

(* (max_entry, mu, lam, setvalued) and (num_variables, mu, nu) *)
Definition ckey : Type := (nat * list Z * list Z * bool)%type.
Definition ckey_eqb (a b : ckey) : bool :=
  match a, b with (n, mu, lam, sv), (n', mu', lam', sv') =>
    Nat.eqb n n' && zlist_eqb mu mu' && zlist_eqb lam lam' && Bool.eqb sv sv' end.
Definition cache : Type := list (ckey * cdict).
Definition skey : Type := (nat * list Z * list Z)%type.
Definition skey_eqb (a b : skey) : bool :=
  match a, b with (n, mu, lam), (n', mu', lam') => Nat.eqb n n' && zlist_eqb mu mu' && zlist_eqb lam lam' end.

(* a loop whose body changes the cache and may raise *)
Fixpoint sfold {A B} (f : B -> A -> cache -> cache * res B) (l : list A) (b : B) (st : cache) : cache * res B :=
  match l with
  | [] => (st, Ok b)
  | a :: l' => match f b a st with
               | (st', Ok b') => sfold f l' b' st'
               | (st', Err e) => (st', Err e)
               end
  end.

Section CountCache.
  Variable ord : list (list Z) -> list (list Z).

  (* tableaux.py:728-748 under cached_value(COUNT_SEMISTANDARD_CACHE) *)
  Fixpoint mcount (n : nat) (mu lam : list Z) (sv : bool) (st : cache) : cache * res cdict :=
    match dget ckey_eqb st (n, mu, lam, sv) with
    | Some d => (st, Ok d)
    | None =>
        let '(st', r) :=
          (if zlist_eqb mu lam then (st, Ok [([], 1)])
           else match n with
                | O => (st, Ok [])
                | S n' =>
                    if contains mu lam then
                      match horizontal_strips ord mu lam with
                      | Err e => (st, Err e)
                      | Ok strips =>
                          sfold (fun ans s st => match s with (nu, diff, corners) =>
                            match mcount n' nu lam sv st with
                            | (st', Ok d) => (st', Ok (fold_left (fun ans pc =>
                                 count_loop n (fst pc) (snd pc) (zlen diff) (nchoosek (zlen corners)) (corner_range corners sv) ans) d ans))
                            | (st', Err e) => (st', Err e)
                            end end) strips [] st
                      end
                    else (st, Ok [])
                end) in
        match r with
        | Ok d => (dset ckey_eqb st' (n, mu, lam, sv) d, Ok d)
        | Err e => (st', Err e)
        end
    end.
  Definition mcall (k : ckey) (st : cache) : cache * res cdict :=
    match k with (n, mu, lam, sv) => mcount n mu lam sv st end.

  (* What a client does: look alpha up in count_semistandard(k); list the items of count_semistandard(k);
     SymmetricPolynomial.schur(n, mu, nu) *)
  Inductive op := OLook (k : ckey) (alpha : list Z) | OItems (k : ckey) | OSchur (k : skey).
  Inductive obs := VLook (r : res Z) | VItems (r : res cdict) | VSchur (r : res spoly).
  Definition cstate : Type := (cache * list (skey * spoly))%type.

  Definition cstep (st : cstate) (o : op) : cstate * obs :=
    let '(c, sc) := st in
    match o with
    | OItems k => let '(c', r) := mcall k c in ((c', sc), VItems r)
    | OLook k alpha =>
        match mcall k c with
        | (c', Err e) => ((c', sc), VLook (Err e))
        | (c', Ok d) =>
            match dget zlist_eqb d alpha with
            | Some x => ((c', sc), VLook (Ok x))
            | None => ((dset ckey_eqb c' k (dset zlist_eqb d alpha 0), sc), VLook (Ok 0))
            end
        end
    | OSchur (n, mu, nu) =>
        match dget skey_eqb sc (n, mu, nu) with
        | Some f => ((c, sc), VSchur (Ok f))
        | None =>
            match mcall (n, mu, nu, false) c with
            | (c', Err e) => ((c', sc), VSchur (Err e))
            | (c', Ok d) =>
                match vectorize n d with
                | Ok f => ((c', dset skey_eqb sc (n, mu, nu) f), VSchur (Ok f))
                | Err e => ((c', sc), VSchur (Err e))
                end
            end
        end
    end.

  Fixpoint chistory (ops : list op) (st : cstate) : list obs * cstate :=
    match ops with
    | [] => ([], st)
    | o :: ops' => let '(st', v) := cstep st o in let '(vs, st'') := chistory ops' st' in (v :: vs, st'')
    end.
End CountCache.
