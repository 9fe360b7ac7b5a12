(* Model of symmetric.py: symmetric monomials, integer symmetric polynomials, _vectorize.
   A SymmetricMonomial is the pair (n, mu) of its fields; n is a natural number (a negative
   number of variables makes the constructor's assertion fail for every mu).
   A SymmetricPolynomial with int coefficients is its dictionary, see M_Vectors.v. *)
From Coq Require Import List ZArith Lia Bool.
From Verif Require Import PyBase FinSum M_Partitions M_Vectors M_Polynomials M_Semistandard.
Import ListNotations.
Local Open Scope Z_scope.

Definition smono : Type := (nat * list Z)%type.
(* symmetric.py:59-64  SymmetricMonomial.__eq__ on two monomials *)
Definition smono_eqb (a b : smono) : bool := Nat.eqb (fst a) (fst b) && zlist_eqb (snd a) (snd b).

(* symmetric.py:34-37  SymmetricMonomial.__init__(n, mu) *)
Definition smake (n : nat) (mu : list Z) : res smono :=
  if (length mu <=? n)%nat then Ok (n, psort mu true) else Err AssertionError.

(* integer coefficients: d[k], d[k] += c, and the constructor (symmetric.py:177-178, drops falsy values) *)
Definition spoly : Type := list (smono * Z).
Definition sget (f : spoly) (m : smono) : Z := dget0 0 smono_eqb f m.
Definition sincr (f : spoly) (m : smono) (c : Z) : spoly := dset smono_eqb f m (sget f m + c).
Definition smk (f : spoly) : spoly := vmake (fun c => c =? 0) f.

(* symmetric.py:256-264  _vectorize(n, tableaux) with signs = None and degree_bound = None *)
Definition vectorize (n : nat) (tableaux : cdict) : res spoly :=
  do d <- rfold (fun d pc => do m <- smake n (fst pc); Ok (sincr d m (snd pc))) tableaux [];
  Ok (smk d).

Section Schur.
  Variable ord : list (list Z) -> list (list Z).
  (* symmetric.py:266-273  schur(num_variables, mu, nu), evaluated without the caches *)
  Definition schur (n : nat) (mu nu : list Z) : res spoly :=
    do tableaux <- count_semistandard ord n mu nu false; vectorize n tableaux.
End Schur.

(* itertools.permutations(l): all arrangements of the positions *)
Fixpoint perms_fuel {A} (fuel : nat) (l : list A) : list (list A) :=
  match fuel with
  | O => [[]]
  | S f => flat_map (fun i => match nth_error l i with
                              | Some x => map (cons x) (perms_fuel f (firstn i l ++ skipn (S i) l))
                              | None => []
                              end) (seq 0 (length l))
  end.
Definition permutations {A} (l : list A) : list (list A) := perms_fuel (length l) l.

Section MonomialPolynomial.
  (* iteration order of set(itertools.permutations(mu)) *)
  Variable ord : list (list Z) -> list (list Z).
  (* variable == 'x' uses Polynomial.x(i) = monomial(i), any other value Polynomial.y(i) = monomial(-i)
     (polynomials.py:329-335) *)
  Definition svar (isx : bool) (i : Z) : Z := if isx then i else - i.

  (* symmetric.py:75-77  term *= x(index[i])**alpha[i] for i in range(k).
     The power of a monomial is never Python's None. *)
  Definition sterm (isx : bool) (index alpha : list Z) : res poly :=
    rfold (fun term ia => match ppow (pmonomial (svar isx (fst ia)) 1) (snd ia) with
                          | Some q => Ok (pmul term q)
                          | None => Err TypeError
                          end) (combine index alpha) pone.

  (* symmetric.py:69-79  SymmetricMonomial.polynomial(variable) *)
  Definition mpolynomial (isx : bool) (m : smono) : res poly :=
    rfold (fun ans alpha =>
      rfold (fun ans index => do term <- sterm isx index alpha; Ok (padd ans term))
            (combinations (zrange 1 (Z.of_nat (fst m) + 1)) (length alpha)) ans)
      (ord (dedup zlist_eqb (permutations (snd m)))) [].
End MonomialPolynomial.

(* symmetric.py:132-148  _destandardize(n, mu) *)
Fixpoint destandardize (n : nat) (mu : list Z) : list (list Z) :=
  match mu with
  | [] => [repeat 0 n]
  | _ =>
      match n with
      | O => []
      | S n' =>
          map (cons 0) (destandardize n' mu) ++
          flat_map (fun i =>
            if (i =? 0)%nat || negb (nth i mu 0 =? nth (i - 1) mu 0)
            then map (cons (nth i mu 0)) (destandardize n' (firstn i mu ++ skipn (S i) mu))
            else []) (seq 0 (length mu))
      end
  end.

(* symmetric.py:161  tuple(alpha[i] + blpha[i] for i in range(n)), both of length n *)
Definition vplus (a b : list Z) : list Z := map (fun ab => fst ab + snd ab) (combine a b).

(* symmetric.py:150-167  _multiply(f, g).  The cache MONOMIAL_PRODUCT_CACHE is left out: its
   dictionaries are only iterated over, see C01. *)
Definition smultiply (f g : smono) : res cdict :=
  if Nat.eqb (fst f) (fst g) then
    let mu := snd f in
    let nu := snd g in
    let n := Nat.min (fst f) (length mu + length nu) in
    Ok (fold_left (fun ans alpha =>
          fold_left (fun ans blpha =>
            let gamma := vplus alpha blpha in
            if is_partition gamma then cincr ans (trim gamma) 1 else ans)
            (destandardize n nu) ans)
          (destandardize n mu) [])
  else Err AssertionError.

Section SymmetricPolynomial.
  (* coefficients: int or Polynomial *)
  Context {R : Type} (rO : R) (radd rmul : R -> R -> R) (rzero : R -> bool) (rint : Z -> R) (coef : R -> poly).
  Variable ord : list (list Z) -> list (list Z).

  Definition sym : Type := list (smono * R).

  (* symmetric.py:212-216  polynomial(variable); [coef c] is c as a factor of a Polynomial *)
  Definition spolynomial (isx : bool) (f : sym) : res poly :=
    rfold (fun ans mc => do p <- mpolynomial ord isx (fst mc); Ok (padd ans (pmul p (coef (snd mc))))) f [].

  (* vectors.py:175-185 with the multiplier of symmetric.py:181-183 *)
  Definition smul (f g : sym) : res sym :=
    do d <- rfold (fun ans ax =>
      rfold (fun ans by_ =>
        do prods <- smultiply (fst ax) (fst by_);
        rfold (fun ans gc =>
          do m <- smake (fst (fst ax)) (fst gc);
          Ok (dset smono_eqb ans m (radd (dget0 rO smono_eqb ans m) (rmul (rmul (snd ax) (snd by_)) (rint (snd gc))))))
          prods ans) g ans) f [];
    Ok (vmake rzero d).
End SymmetricPolynomial.

(* the two coefficient types *)
Definition smul_int : list (smono * Z) -> list (smono * Z) -> res (list (smono * Z)) :=
  smul 0 Z.add Z.mul (fun c => c =? 0) (fun c => c).
Definition smul_poly : list (smono * poly) -> list (smono * poly) -> res (list (smono * poly)) :=
  smul [] padd pmul pis_zero pconst.
