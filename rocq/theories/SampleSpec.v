(** Specification vocabulary for the sampler (C18, C19): which points belong to a cell, where the cells are, what a consistent
    collection of cells and points is.  Boxes are defined from the root downwards, independently of getCellBoundaries. *)
From Coq Require Export Permutation.
From Verif Require Export Arr SampleModel.
Local Open Scope Z_scope.

(** p can be reached from h by following the successor links *)
Inductive linked (nx : Z -> Z) : Z -> Z -> Prop :=
| linked_here : forall p, 0 <= p -> linked nx p p
| linked_next : forall h p, 0 <= h -> linked nx (nx h) p -> linked nx h p.
Definition is_cell (s : smp) (c : Z) : Prop := 0 <= c < alen (cells s).
Definition the_cell (s : smp) (c : Z) : cell := afn (cells s) c.
(** p is one of the points of cell c *)
Definition belongs (s : smp) (c p : Z) : Prop := is_cell s c /\ linked (afn (nextp s)) (c_head (the_cell s c)) p.
Definition leaf (s : smp) (c : Z) : Prop := c_child (the_cell s c) = -1.
(** the box [lo,up) of a cell: the root is the whole region, the children are the two halves of their parent *)
Inductive cell_box (e : env) (s : smp) : Z -> (Z -> R) -> (Z -> R) -> Prop :=
| box_root : cell_box e s 0 (xlower e) (xupper e)
| box_lower : forall c lo up, cell_box e s c lo up -> is_cell s c -> ~ leaf s c ->
    let d := c_dim (the_cell s c) in cell_box e s (c_child (the_cell s c)) lo (upd up d ((lo d + up d) / 2)%R)
| box_upper : forall c lo up, cell_box e s c lo up -> is_cell s c -> ~ leaf s c ->
    let d := c_dim (the_cell s c) in cell_box e s (c_child (the_cell s c) + 1) (upd lo d ((lo d + up d) / 2)%R) up.
Definition inside (e : env) (lo up x : Z -> R) : Prop := forall d, 0 <= d < Ndim e -> (lo d <= x d < up d)%R.
(** coordinates of a stored point; number of points *)
Definition pt (e : env) (s : smp) (p : Z) : Z -> R := fun d => afn (coords s) (p * Ndim e + d).
Definition npoints (s : smp) : Z := alen (fvals s).
Definition in_box (e : env) (s : smp) (c : Z) (x : Z -> R) : Prop := exists lo up, cell_box e s c lo up /\ inside e lo up x.

Record consistent (e : env) (s : smp) : Prop := {
  k_sizes : alen (nextp s) = npoints s /\ alen (coords s) = npoints s * Ndim e;
  k_point : forall p, 0 <= p < npoints s -> exists! c, belongs s c p;
  k_cell : forall c p, belongs s c p -> 0 <= p < npoints s /\ leaf s c /\ in_box e s c (pt e s p);
  k_tile : forall x, inside e (xlower e) (xupper e) x -> exists! c, is_cell s c /\ leaf s c /\ in_box e s c x }.

(** admissible inputs: at least one dimension, uniform numbers in [0,1), and the parallel loop executes every iteration once *)
Record good_env (e : env) : Prop := {
  g_dim : 1 <= Ndim e;
  g_box : forall d, 0 <= d < Ndim e -> (xlower e d < xupper e d)%R;
  g_unif : forall a b p d, (0 <= unif e a b p d < 1)%R;
  g_order : forall l, Permutation (order e l) l }.

(** the operations of the sampler, applied in any order to any cells: the initial state has one cell and no points *)
Definition start (s : smp) : Prop := alen (cells s) = 1 /\ (exists w, (0 < w)%R /\ afn (cells s) 0 = set_weight cell0 w) /\ alen (nextp s) = 0 /\ alen (coords s) = 0 /\ alen (fvals s) = 0.
Inductive history (e : env) : smp -> Prop :=
| h_start : forall s, start s -> history e s
| h_split : forall s s' c d lo up p, history e s -> belongs s c p -> 0 <= d < Ndim e -> cell_box e s c lo up ->
    splitCell e s c d ((lo d + up d) / 2)%R = Ok s' -> history e s'
| h_decide : forall s s' c p, history e s -> belongs s c p -> decideHowToSplitCell e s c = Ok s' -> history e s'
| h_add : forall s s' c n, history e s -> is_cell s c -> leaf s c -> npoints s <= n ->
    addPointsToCell e (grow e s n) c (npoints s) n = Ok s' -> history e s'
| h_queue : forall s s' q q' c, history e s -> is_cell s c -> addCellToQueue s q c = Ok (s', q') -> history e s'
| h_eval : forall s s' first last, history e s -> 0 <= first <= last -> last <= npoints s -> evalFncLoop e s first last = Ok s' -> history e s'.

(** sum of a list; the weighted sum over all points, given any listing of the pairs (cell, point) *)
Definition rsum (l : list R) : R := fold_right Rplus 0%R l.
Definition lists_points (s : smp) (l : list (Z * Z)) : Prop := NoDup l /\ forall c p, In (c, p) l <-> belongs s c p.
Definition weighted (s : smp) (cp : Z * Z) : R := (afn (fvals s) (snd cp) * c_weight (the_cell s (fst cp)))%R.
(** row r of a row-major matrix with n columns *)
Definition row (n : Z) (out : arr R) (r : Z) : list R := map (fun d => afn out (r * n + Z.of_nat d)) (seq 0 (Z.to_nat n)).
(** all pairs of stored points differ in all coordinates *)
Definition all_distinct (e : env) (s : smp) : Prop := forall p q d, 0 <= p < npoints s -> 0 <= q < npoints s -> p <> q -> 0 <= d < Ndim e -> pt e s p d <> pt e s q d.
