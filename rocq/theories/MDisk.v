(** Model of demo.py:generate_disk: the vertices, over exact reals (cos and sin
    have no binary64 semantics in the model).  The triangles come from
    matplotlib's Delaunay triangulation and are not modelled. *)
From Coq Require Import Reals.
From Verif Require Import Base MUtils RBase MDemo.
Open Scope R_scope.

(** np.cumsum *)
Fixpoint cumsumR (s : R) (l : list R) : list R :=
  match l with [] => [] | x :: t => (s + x) :: cumsumR (s + x) t end.
Fixpoint cumsumZ (s : Z) (l : list Z) : list Z :=
  match l with [] => [] | x :: t => (s + x)%Z :: cumsumZ (s + x) t end.

(** np.linspace(0.0, 1.0, n) *)
Definition linspace01 (n : Z) : list R :=
  if (n =? 1)%Z then [0] else map (fun i => IZR i / IZR (n - 1)) (iota (Z.to_nat n)).

(** demo.py:107-123; [n_per_level[0] = 1] raises IndexError on an empty array *)
Definition disk_vertices (partitions depth : Z) : res (list pt) :=
  if (partitions <? 3)%Z then Err EValue
  else
    let N := (depth + 1)%Z in
    let n_per_level := map (fun i => (partitions * i)%Z) (iota (Z.to_nat N)) in
    let* n_per_level := aset n_per_level 0 1%Z in
    let counts := map Z.to_nat n_per_level in
    let delta_angle := map (fun n => 2 * PI / IZR n) (np_repeat n_per_level counts) in
    let index := np_repeat (0%Z :: removelast (cumsumZ 0 n_per_level)) counts in
    let angles := cumsumR 0 delta_angle in
    let* angles_index := mapres (aget angles) index in
    let angles := map (fun ab => fst ab - snd ab + / 2 * PI) (combine angles angles_index) in
    let radii := np_repeat (linspace01 N) counts in
    Ok (map (fun ar => Pt (cos (fst ar) * snd ar) (sin (fst ar) * snd ar)) (combine angles radii)).
