(** Model of the file of rays: src/sweepers/moc/moc_sweeper.cpp:175-178 and src/sweepers/moc/ray_data.cpp:528-572 operator<<.
    The file is the list of its characters.  [num] is how the stream prints a double and [int] how it prints an integer; a failing
    stream (no room, no permission) is left out. *)
From Coq Require Import String Ascii List Bool Reals ZArith.
From Verif Require Import GeomModel.
Import ListNotations.

(** A string literal as characters; used for the literals of src/sweepers/moc/ray_data.cpp:528-572. *)
Definition lit (s : string) : list ascii := list_ascii_of_string s.
(** std::endl (src/sweepers/moc/ray_data.cpp:535). *)
Definition nl : list ascii := [ascii_of_nat 10].
(** A file open for writing: its characters and the position of the next one (src/sweepers/moc/ray_data.cpp:548-568). *)
Record Stream := { st_txt : list ascii; st_pos : nat }.
(** operator<<: writes over what is at the position, and beyond the end (src/sweepers/moc/ray_data.cpp:535-568). *)
Definition put_txt (s : list ascii) (o : Stream) : Stream :=
  {| st_txt := firstn (st_pos o) (st_txt o) ++ s ++ skipn (st_pos o + length s) (st_txt o); st_pos := st_pos o + length s |}.
(** seekp (src/sweepers/moc/ray_data.cpp:560-562, 567). *)
Definition seek (p : nat) (o : Stream) : Stream := {| st_txt := st_txt o; st_pos := p |}.

(** What is printed of a ray: its ends and the indices of its boundary conditions (src/sweepers/moc/ray.hpp:168-171,
    src/sweepers/moc/ray.cpp:178-183). *)
Record PRay := { pr_p1 : Point2; pr_p2 : Point2; pr_bc0 : Z; pr_bc1 : Z }.

Section RayPy.
Variable num : R -> list ascii.
Variable int : Z -> list ascii.
(** src/core/geometry/geom.cpp:23-27. *)
Definition point_txt (p : Point2) : list ascii := lit "[ " ++ num (ptx p) ++ lit ", " ++ num (pty p) ++ lit " ]".
(** src/sweepers/moc/ray.cpp:178-183. *)
Definition ray_txt (r : PRay) : list ascii := lit "[" ++ point_txt (pr_p1 r) ++ lit ", " ++ point_txt (pr_p2 r) ++ lit "]".
(** src/sweepers/moc/ray_data.cpp:553-557: the rays of an angle; second component: ray_pos. *)
Fixpoint put_rays (l : list PRay) (o : Stream) (ray_pos : nat) : Stream * nat :=
  match l with
  | [] => (o, ray_pos)
  | r :: l' =>
      let o1 := put_txt (ray_txt r) o in
      put_rays l' (put_txt (lit ",    # " ++ int (pr_bc0 r) ++ lit " " ++ int (pr_bc1 r) ++ nl) o1) (st_pos o1)
  end.
(** src/sweepers/moc/ray_data.cpp:551-565: the angles of the plane; second component: angle_pos. *)
Fixpoint put_angles (l : list (list PRay)) (o : Stream) (angle_pos : nat) : Stream * nat :=
  match l with
  | [] => (o, angle_pos)
  | a :: l' =>
      let '(o1, ray_pos) := put_rays a (put_txt (lit "[ " ++ nl) o) (st_pos o) in
      let end_pos := st_pos o1 in
      let o2 := seek end_pos (put_txt (lit " ]") (seek ray_pos o1)) in
      put_angles l' (put_txt (lit "," ++ nl) o2) (st_pos o2)
  end.
(** src/sweepers/moc/ray_data.cpp:535-546. *)
Definition header : list ascii :=
  lit "import cairo" ++ nl ++ lit "def draw_rays( ctx, angle):" ++ nl ++ lit "    angle_rays = rays[angle]" ++ nl ++
  lit "    for r in angle_rays:" ++ nl ++ lit "        p1 = r[0]" ++ nl ++ lit "        p2 = r[1]" ++ nl ++
  lit "        ctx.move_to(p1[0], p1[1])" ++ nl ++ lit "        ctx.line_to(p2[0], p2[1])" ++ nl ++ lit "        ctx.close_path()" ++ nl ++
  lit "    ctx.stroke()" ++ nl ++ lit "    return" ++ nl.
(** src/sweepers/moc/ray_data.cpp:528-572 for the rays [data] by plane and angle, on a stream at its end; [None] = begin() of no planes
    is read, which is undefined. *)
Definition put_raydata (data : list (list (list PRay))) (o : Stream) : option Stream :=
  match data with
  | [] => None
  | plane :: _ =>
      let o1 := put_txt (lit "rays = [ ") (put_txt header o) in
      let '(o2, angle_pos) := put_angles plane o1 (st_pos o1) in
      Some (put_txt (lit " ]" ++ nl) (seek angle_pos o2))
  end.
(** src/sweepers/moc/moc_sweeper.cpp:175-178: the characters of rays.py; inner [None] = no file. *)
Definition ray_file (dump_rays : bool) (data : list (list (list PRay))) : option (option (list ascii)) :=
  if dump_rays then option_map (fun o => Some (st_txt (put_txt nl o))) (put_raydata data {| st_txt := []; st_pos := 0 |}) else Some None.
End RayPy.
