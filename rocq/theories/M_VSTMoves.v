(* Model of vst.py, ValuedSetTableau.forward_transition and backward_transition.  The caches only store the values.  The lists
   of starts and ends are zipped into lists of pairs (start, end) *)
From Coq Require Import List ZArith Bool.
From Verif Require Import PyBase M_Partitions M_Tableaux M_Transposed M_VST.
Import ListNotations.
Local Open Scope Z_scope.

Definition seg := (box * box)%type.

(* vst.py:496-514  the body of the inner loop of backward_transition *)
Definition bt_step (v h : seg) : seg * seg :=
  let '((vx1, vy1), (vx2, vy2)) := v in
  let '((hx1, hy1), (hx2, hy2)) := h in
  if box_eqb (vx1, vy1) (hx1, hy1 - 1) then
    if vx1 <? vx2 then (((vx1 + 1, vy1), (vx2, vy2)), ((hx1, hy1 - 1), (hx2, hy2)))
    else (((vx1, hy2), (vx2, hy2)), ((hx1, hy1 - 1), (hx2, hy2 - 1)))
  else if box_eqb (vx2, vy2) (hx2 - 1, hy2) then
    if hy1 <? hy2 then (((vx1, vy1), (vx2 + 1, vy2)), ((hx1, hy1), (hx2, hy2 - 1)))
    else (((vx1 + 1, vy1), (vx2 + 1, vy2)), ((vx1, hy1), (vx1, hy2)))
  else (v, h).
(* vst.py:495-515  the inner loop; hs is the list in the order of the loop *)
Fixpoint bt_inner (v : seg) (hs : list seg) : seg * list seg :=
  match hs with
  | [] => (v, [])
  | h :: r => let (v1, h1) := bt_step v h in let (v2, r2) := bt_inner v1 r in (v2, h1 :: r2)
  end.
(* vst.py:493-516  both loops; vs and hs are the lists in the order of the loops *)
Fixpoint bt_outer (vs hs : list seg) : list seg * list seg :=
  match vs with
  | [] => ([], hs)
  | v :: r => let (v1, hs1) := bt_inner v hs in let (r2, hs2) := bt_outer r hs1 in (v1 :: r2, hs2)
  end.

(* range(x1, x2 + 1) times range(y1, y2 + 1) *)
Definition seg_cells (s : seg) : list box := flat_map (fun a => map (fun b => (a, b)) (zrange (snd (fst s)) (snd (snd s) + 1))) (zrange (fst (fst s)) (fst (snd s) + 1)).
(* m[c] = x for (c, x) in ws *)
Definition mputs (ws : list (box * Z)) (m : list (box * pyval)) : list (box * pyval) := fold_left (fun m w => mput (fst w) (VInt (snd w)) m) ws m.
(* vst.py:223-241, 518-532  the two loops at the end and the result; the writes to tab and grp are listed separately *)
Definition write_back (v : tab * tab) (vs hs : list seg) (value : Z) : res (tab * tab) :=
  let tab_writes := flat_map (fun s => map (fun c => (c, - value - 1)) (seg_cells s)) vs ++ flat_map (fun s => map (fun c => (c, value)) (seg_cells s)) hs in
  let grp_writes := flat_map (fun s => map (fun c => (c, 1)) (seg_cells s) ++ [(fst s, 0)]) vs ++ flat_map (fun s => map (fun c => (c, 1)) (seg_cells s) ++ [(snd s, 0)]) hs in
  do t <- tinit (mputs tab_writes (items (fst v)));
  do g <- tinit (mputs grp_writes (items (snd v)));
  vst_init t g.
(* vst.py:485-533  backward_transition(value) *)
Definition backward_transition (fuel : nat) (v : tab * tab) (value : Z) : res (tab * tab) :=
  do vert <- get_verticals fuel v (- value - 1);
  do hor <- get_horizontals fuel v value;
  let (vs, hs) := bt_outer (rev (combine (fst vert) (snd vert))) (rev (combine (fst hor) (snd hor))) in
  write_back v (rev vs) (rev hs) value.

(* diag1, diag2 *)
Definition diags := (option Z * option Z)%type.
Definition set_diag1 (is_last : bool) (d : diags) (x : Z) : res diags := match fst d with None => if is_last then Ok (Some x, snd d) else Err AssertionError | Some _ => Err AssertionError end.
Definition set_diag2 (is_last : bool) (d : diags) (x : Z) : res diags := match snd d with None => if is_last then Ok (fst d, Some x) else Err AssertionError | Some _ => Err AssertionError end.
Definition mem_box (c : box) (l : list box) : bool := existsb (box_eqb c) l.
(* vst.py:189-220  the body of the inner loop of forward_transition; is_last: i + 1 == len(vertical_starts); vstarts and hends are the
   current lists vertical_starts and horizontal_ends *)
Definition ft_step (is_last : bool) (vstarts hends : list box) (v h : seg) (d : diags) : res (seg * seg * diags) :=
  let '((vx1, vy1), (vx2, vy2)) := v in
  let '((hx1, hy1), (hx2, hy2)) := h in
  if (vx1 =? vy1) && (vy1 =? hx1 + 1) && (hx1 + 1 =? hy1 + 1) && (hy1 + 1 <=? hy2) then do d' <- set_diag2 is_last d vx1; Ok (v, h, d')
  else if (hx2 =? hy2) && (hy2 =? vx2 - 1) && (vx2 - 1 =? vy2 - 1) && (vx1 <=? vy2 - 1) then do d' <- set_diag1 is_last d hx2; Ok (v, h, d')
  else if box_eqb (vx1, vy1) (hx1 + 1, hy1) then
    if mem_box (hx1, hx1) vstarts then do d' <- set_diag2 is_last d vx1; Ok (v, h, d')
    else if hy1 <? hy2 then Ok (((vx1 - 1, vy1), (vx2, vy2)), ((hx1, hy1 + 1), (hx2, hy2)), d)
    else Ok (((vx1 - 1, vy1), (vx2 - 1, vy2)), ((vx2, hy1), (vx2, hy2)), d)
  else if box_eqb (vx2, vy2) (hx2, hy2 + 1) then
    if mem_box (vy2, vy2) hends then do d' <- set_diag1 is_last d hx2; Ok (v, h, d')
    else if vx1 <? vx2 then Ok (((vx1, vy1), (vx2 - 1, vy2)), ((hx1, hy1), (hx2, hy2 + 1)), d)
    else Ok (((vx1, hy1), (vx2, hy1)), ((hx1, hy1 + 1), (hx2, hy2 + 1)), d)
  else Ok (v, h, d).
(* vst.py:188-221  the inner loop; done are the horizontals already visited *)
Fixpoint ft_inner (is_last : bool) (vstarts : list box) (done : list seg) (v : seg) (hs : list seg) (d : diags) : res (seg * list seg * diags) :=
  match hs with
  | [] => Ok (v, done, d)
  | h :: r =>
      do x <- ft_step is_last vstarts (map snd (done ++ h :: r)) v h d;
      ft_inner is_last vstarts (done ++ [snd (fst x)]) (fst (fst x)) r (snd x)
  end.
(* vst.py:186-222  both loops *)
Fixpoint ft_outer (done vs hs : list seg) (d : diags) : res (list seg * list seg * diags) :=
  match vs with
  | [] => Ok (done, hs, d)
  | v :: r =>
      do x <- ft_inner (match r with [] => true | _ => false end) (map fst (done ++ v :: r)) [] v hs d;
      ft_outer (done ++ [fst (fst x)]) r (snd (fst x)) (snd x)
  end.
(* vst.py:174-242  forward_transition(value) *)
Definition forward_transition (fuel : nat) (v : tab * tab) (value : Z) : res (tab * tab) :=
  do vert <- get_verticals fuel v (- value - 1);
  do hor <- get_horizontals fuel v value;
  do x <- ft_outer [] (combine (fst vert) (snd vert)) (combine (fst hor) (snd hor)) (None, None);
  match snd x with
  | (Some _, Some _) => Err AssertionError
  | _ => write_back v (fst (fst x)) (snd (fst x)) value
  end.
