(** Model of the group source (src/core/source.{hpp,cpp}, source_isotropic.{hpp,cpp}, sweepers/cmdo/source_2d3d.hpp) and of
    the fission bookkeeping of transport sweepers (src/core/transport_sweeper.{hpp,cpp}).  Doubles are exact reals. *)
From Coq Require Import List Bool Reals ZArith Arith.
From Verif Require Import RUtil ListUtil McModel ScatModel MatModel XsModel.
Import ListNotations.
Open Scope nat_scope.

(** Two-dimensional arrays as lists of rows; [None] = index out of range.  See src/core/source.cpp:123-144. *)
Definition at2 (a : list (list R)) (i j : nat) : option R := match nth_error a i with Some row => nth_error row j | None => None end.

(** A loop adding [f ireg] to element [ireg] for each listed region.  See src/core/source.cpp:123-144. *)
Fixpoint add_regs (regs : list nat) (f : nat -> option R) (v : list R) : option (list R) :=
  match regs with
  | [] => Some v
  | r :: rest => match f r, nth_error v r with
                 | Some x, Some y => match set_nth v r (y + x)%R with Some v' => add_regs rest f v' | None => None end
                 | _, _ => None
                 end
  end.

(** src/core/source.cpp:123-144 Source::add_external: [dims] and data as read from the file.  [None] = no file given.
    The array keeps the file's extents (group, region). *)
Definition add_external (ng nreg : nat) (file : option (list (list R))) (old : option (list (list R))) : Out (option (list (list R))) :=
  match file with
  | None => Got old
  | Some a => if (length a =? ng) && forallb (fun r => length r =? nreg) a then Got (Some a) else Threw
  end.
(** src/core/source.cpp:44-46. *)
Fixpoint read_ext (a : list (list R)) (ig ireg cnt : nat) : option (list R) :=
  match cnt with
  | O => Some []
  | S c => match at2 a ireg ig, read_ext a ig (S ireg) c with Some x, Some l => Some (x :: l) | _, _ => None end
  end.
(** src/core/source.cpp:41-54 Source::initialize_group. *)
Definition initialize_group (ext : option (list (list R))) (nreg ig : nat) (src : list R) : option (list R) :=
  match ext with
  | Some a => read_ext a ig 0 nreg
  | None => Some (map (fun _ => 0%R) src)
  end.
(** src/core/source.cpp:64-79 Source::fission. *)
Fixpoint fission (xs : list XReg) (fs : list R) (ig : nat) (src : list R) : option (list R) :=
  match xs with
  | [] => Some src
  | x :: r => match nth_error (xr_ch x) ig with
              | Some ch => match add_regs (xr_reg x) (fun i => match nth_error fs i with Some f => Some (ch * f)%R | None => None end) src with
                           | Some s => fission r fs ig s
                           | None => None
                           end
              | None => None
              end
  end.
(** src/core/source.cpp:96-108: the entries of the row from group [gg] on. *)
Fixpoint scatter_row (x : XReg) (row : Row) (fl : list (list R)) (ig gg cnt : nat) (src : list R) : option (list R) :=
  match cnt with
  | O => Some src
  | S c =>
      match nth_error (scat (xr_sc x)) (rpos row + (gg - min_g row)) with
      | None => None
      | Some sc =>
          if gg =? ig then scatter_row x row fl ig (S gg) c src
          else match add_regs (xr_reg x) (fun i => match at2 fl i gg with Some p => Some (sc * p)%R | None => None end) src with
               | Some s => scatter_row x row fl ig (S gg) c s
               | None => None
               end
      end
  end.
(** src/core/source.cpp:85-112 Source::in_scatter. *)
Fixpoint in_scatter (xs : list XReg) (fl : list (list R)) (ig : nat) (src : list R) : option (list R) :=
  match xs with
  | [] => Some src
  | x :: r =>
      match xr_reg x with
      | [] => in_scatter r fl ig src
      | _ => match nth_error (rows (xr_sc x)) ig with
             | Some row => match scatter_row x row fl ig (min_g row) (max_g row + 1 - min_g row) src with
                           | Some s => in_scatter r fl ig s
                           | None => None
                           end
             | None => None
             end
      end
  end.
(** src/core/source.cpp:114-121 Source::auxiliary. *)
Definition auxiliary (aux src : list R) : option (list R) := add_regs (seq 0 (length src)) (fun i => nth_error aux i) src.
(** src/core/source.hpp:119-125 Source::scale. *)
Definition scale_src (v src : list R) : option (list R) :=
  if length v <? length src then None else Some (map (fun p => (fst p * snd p)%R) (combine src v)).

(** src/core/source_isotropic.cpp:30-32, 39-41: the regions of one cross-section region. *)
Fixpoint set_regs (regs : list nat) (f : nat -> option R) (v : list R) : option (list R) :=
  match regs with
  | [] => Some v
  | r :: rest => match f r with Some x => match set_nth v r x with Some v' => set_regs rest f v' | None => None end | None => None end
  end.
(** src/core/source_isotropic.cpp:21-57 SourceIsotropic::self_scatter; [div] = a cross-section array was passed (its
    contents are not used). *)
Fixpoint self_scatter (div : bool) (xs : list XReg) (fl : list (list R)) (src : list R) (ig : nat) (q : list R) : option (list R) :=
  match xs with
  | [] => Some q
  | x :: r =>
      match self_scat (xr_sc x) ig, nth_error (xr_tr x) ig with
      | Some ss, Some tr =>
          if div && Reqb tr 0 then None
          else
            let f := if div then (1 / (tr * (4 * PI)))%R else (1 / (4 * PI))%R in
            match set_regs (xr_reg x) (fun i => match nth_error src i, at2 fl i ig with Some s, Some p => Some ((s + p * ss) * f)%R | _, _ => None end) q with
            | Some q' => self_scatter div r fl src ig q'
            | None => None
            end
      | _, _ => None
      end
  end.

(** src/core/transport_sweeper.cpp:111-113, over the regions. *)
Fixpoint fis_regs (nf : R) (fl : list (list R)) (vol : list R) (ig : nat) (regs : list nat) (t : R) : option R :=
  match regs with
  | [] => Some t
  | i :: r => match at2 fl i ig, nth_error vol i with Some p, Some v => fis_regs nf fl vol ig r (t + p * v * nf)%R | _, _ => None end
  end.
(** src/core/transport_sweeper.cpp:109-114. *)
Fixpoint fis_groups (x : XReg) (fl : list (list R)) (vol : list R) (ig cnt : nat) (t : R) : option R :=
  match cnt with
  | O => Some t
  | S c => match nth_error (xr_nf x) ig with
           | Some nf => match fis_regs nf fl vol ig (xr_reg x) t with Some t' => fis_groups x fl vol (S ig) c t' | None => None end
           | None => None
           end
  end.
(** src/core/transport_sweeper.cpp:104-117 total_fission; [fl] is the current or the old flux. *)
Fixpoint fis_mesh (xs : list XReg) (ng : nat) (fl : list (list R)) (vol : list R) (t : R) : option R :=
  match xs with
  | [] => Some t
  | x :: r => match fis_groups x fl vol 0 ng t with Some t' => fis_mesh r ng fl vol t' | None => None end
  end.
(** As above, src/core/transport_sweeper.cpp:104-117. *)
Definition total_fission (xs : list XReg) (ng : nat) (fl : list (list R)) (vol : list R) : option R := fis_mesh xs ng fl vol 0.
(** src/core/transport_sweeper.cpp:126-130. *)
Fixpoint fs_groups (rk : R) (x : XReg) (fl : list (list R)) (ig cnt : nat) (fs : list R) : option (list R) :=
  match cnt with
  | O => Some fs
  | S c => match nth_error (xr_nf x) ig with
           | Some nf => match add_regs (xr_reg x) (fun i => match at2 fl i ig with Some p => Some (rk * nf * p)%R | None => None end) fs with
                        | Some fs' => fs_groups rk x fl (S ig) c fs'
                        | None => None
                        end
           | None => None
           end
  end.
(** src/core/transport_sweeper.cpp:119-134 calc_fission_source. *)
Fixpoint fs_mesh (rk : R) (xs : list XReg) (ng : nat) (fl : list (list R)) (fs : list R) : option (list R) :=
  match xs with
  | [] => Some fs
  | x :: r => match fs_groups rk x fl 0 ng fs with Some fs' => fs_mesh rk r ng fl fs' | None => None end
  end.
(** As above, src/core/transport_sweeper.cpp:119-134. *)
Definition calc_fission_source (k : R) (xs : list XReg) (ng : nat) (fl : list (list R)) (fs : list R) : option (list R) :=
  if Reqb k 0 then None else fs_mesh (1 / k)%R xs ng fl (map (fun _ => 0%R) fs).

(** src/core/transport_sweeper.cpp:154-161: power of each flat source region. *)
Fixpoint pow_groups (x : XReg) (fl : list (list R)) (vol : list R) (ig cnt : nat) (p : list R) : option (list R) :=
  match cnt with
  | O => Some p
  | S c => match nth_error (xr_f x) ig with
           | Some f => match add_regs (xr_reg x) (fun i => match at2 fl i ig, nth_error vol i with Some ph, Some v => Some (ph * f * v)%R | _, _ => None end) p with
                       | Some p' => pow_groups x fl vol (S ig) c p'
                       | None => None
                       end
           | None => None
           end
  end.
(** As above, src/core/transport_sweeper.cpp:154-161. *)
Fixpoint pow_mesh (xs : list XReg) (ng : nat) (fl : list (list R)) (vol : list R) (p : list R) : option (list R) :=
  match xs with
  | [] => Some p
  | x :: r => match pow_groups x fl vol 0 ng p with Some p' => pow_mesh r ng fl vol p' | None => None end
  end.
(** src/core/transport_sweeper.cpp:171-181: pins of one macroplane; a pin is its number of regions.  [base] is the start of
    the plane in powers; region powers are consumed in order. *)
Fixpoint pin_sum (n : nat) (fp : list R) (s : R) : option (R * list R) :=
  match n, fp with
  | O, _ => Some (s, fp)
  | S k, x :: r => pin_sum k r (s + x)%R
  | S _, [] => None
  end.
(** As above, src/core/transport_sweeper.cpp:171-181. *)
Fixpoint plane_powers (cell : nat -> nat) (base ipin : nat) (pins : list nat) (fp pw : list R) : option (list R * list R) :=
  match pins with
  | [] => Some (fp, pw)
  | n :: r =>
      match nth_error pw (base + cell ipin) with
      | Some y => match pin_sum n fp y with
                  | Some (s, fp') => match set_nth pw (base + cell ipin) s with Some pw' => plane_powers cell base (S ipin) r fp' pw' | None => None end
                  | None => None
                  end
      | None => None
      end
  end.
(** As above, src/core/transport_sweeper.cpp:171-181. *)
Fixpoint all_powers (cell : nat -> nat) (nxy iplane : nat) (planes : list (list nat)) (fp pw : list R) : option (list R) :=
  match planes with
  | [] => Some pw
  | p :: r => match plane_powers cell (nxy * iplane) 0 p fp pw with Some (fp', pw') => all_powers cell nxy (S iplane) r fp' pw' | None => None end
  end.
(** src/core/transport_sweeper.cpp:140-193 pin_powers; [nfuel] is n_fuel_2d().  [None] = out of range or zero total. *)
Definition pin_powers (cell : nat -> nat) (nxy : nat) (planes : list (list nat)) (nfuel : R) (xs : list XReg) (ng : nat) (fl : list (list R)) (vol : list R) : option (list R) :=
  match pow_mesh xs ng fl vol (map (fun _ => 0%R) vol) with
  | None => None
  | Some fp =>
      match all_powers cell nxy 0 planes fp (repeat 0%R (nxy * length planes)) with
      | None => None
      | Some pw =>
          let tot := fold_left Rplus (firstn (list_sum (map list_sum planes)) fp) 0%R in
          if Reqb tot 0 then None else Some (map (fun v => v * (nfuel / tot))%R pw)
      end
  end.
(** src/core/transport_sweeper.cpp:210-223 flux_residual. *)
Definition flux_residual (a b : list R) : R := sqrt (fold_left (fun s p => (s + (fst p - snd p) * (fst p - snd p))%R) (combine a b) 0%R).

(** src/sweepers/cmdo/source_2d3d.hpp:79-90: the fission source holds the Sn part, then the MoC part. *)
Definition fission_2d3d (sn moc : list XReg) (fs : list R) (ig : nat) (sn_src moc_src : list R) : option (list R * list R) :=
  match fission sn (firstn (length sn_src) fs) ig sn_src, fission moc (skipn (length sn_src) fs) ig moc_src with
  | Some a, Some b => Some (a, b)
  | _, _ => None
  end.
(** src/sweepers/cmdo/plane_sweeper_2d3d.hpp:170-185 calc_fission_source. *)
Definition calc_fission_2d3d (k : R) (sn moc : list XReg) (ng : nat) (sn_fl moc_fl : list (list R)) (fs : list R) : option (list R) :=
  match calc_fission_source k sn ng sn_fl (firstn (length sn_fl) fs), calc_fission_source k moc ng moc_fl (skipn (length sn_fl) fs) with
  | Some a, Some b => Some (a ++ b)
  | _, _ => None
  end.
