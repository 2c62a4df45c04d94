(** Model of angler/plot.py, the plotting methods of angler/simulation.py and
    angler/optimization.py, and Optimization.run with temp_plt.  A plot is the data that is
    handed to matplotlib (array, colour limits, outline); what matplotlib makes of it
    (colours, tick marks, the logarithmic colour scale, the bytes of the image file) is not
    modelled. *)
From Coq Require Import Reals Lra Lia List ZArith Arith Bool String DecimalString.
From Coquelicot Require Import Coquelicot.
From Verif Require Import Base Linear MCore MSim MFilter MOpt.
Import ListNotations.
Local Open Scope string_scope.

(* ------------------------------------------------------------------ *)
(** * numpy *)

(** a.transpose() of a two-dimensional array *)
Definition nd_T {T} (a : nd T) : nd T :=
  mkNd (nd_ny a) (nd_nx a) (fun k => nd_at a (k mod nd_nx a) (k / nd_nx a)).
(** np.hstack(t*[a]): t copies side by side along the second axis; ValueError for an
    empty list *)
Definition nd_tile {T} (t : nat) (a : nd T) : res (nd T) :=
  match t with
  | O => Raise ValueError
  | S _ => Ok (mkNd (nd_nx a) (t * nd_ny a)
                 (fun k => nd_at a (k / (t * nd_ny a)) (k mod (t * nd_ny a) mod nd_ny a)))
  end.
(** elementwise function *)
Definition nd_map {T U} (f : T -> U) (a : nd T) : nd U := mkNd (nd_nx a) (nd_ny a) (fun k => f (nd_buf a k)).
(** a.max(); ValueError on an empty array *)
Definition nd_max (a : nd R) : res R :=
  match nd_size a with O => Raise ValueError | S _ => Ok (rmax (nd_size a) (nd_buf a)) end.
(** a.min() *)
Definition nd_min (a : nd R) : res R :=
  match nd_size a with O => Raise ValueError | S _ => Ok (- rmax (nd_size a) (fun k => - nd_buf a k))%R end.

(* ------------------------------------------------------------------ *)
(** * plot.py *)

(** What imshow and contour receive: the array (first index: row, counted upwards because
    of origin='lower'), the colour limits, and the array of the outline. *)
Record picture := mkPic { pc_data : nd R; pc_vmin : R; pc_vmax : R; pc_outline : option (nd R) }.

(** plot.py:7-33, plt_base, and plot.py:36-59, plt_base_eps (the same data) *)
Definition plt_base (field_val outline_val : nd R) (vmin vmax : R) (outline : bool) : picture :=
  mkPic (nd_T field_val) vmin vmax (if outline then Some (nd_T outline_val) else None).

(** plot.py:62-88, plt_base_ani: the limits set in init (75) and the array set for frame i
    (80-81).  With Nframes = 1 the exponent is divided by zero. *)
Definition ani_limit (field_val : nd C) : res R := nd_max (nd_map Cmod (nd_T field_val)).
Definition ani_frame (field_val : nd C) (Nframes i : nat) : res (nd R) :=
  if Nat.eqb Nframes 1 then Raise ZeroDivisionError
  else let t := (2 * PI * INR i / (INR Nframes - 1))%R in
       Ok (nd_map (fun z => Re (z * (cos t, sin t))%C) (nd_T field_val)).

(** plot.py:67: width and height of the rectangle the frames are stretched over, in data units.
    imshow fixes it from the number of columns and rows of its first array, the zeros of the
    shape of the transposed field, transposed once more; set_data keeps it. *)
Definition ani_box (field_val : nd C) : nat * nat :=
  let z := nd_T (nd_map (fun _ => 0%R) (nd_T field_val)) in (nd_ny z, nd_nx z).

(** plot.py:90-99, Temp_plt; [plot_what] is what iterating over the attribute yields: for a
    tuple of strings the strings, for a string its characters.  folder, dpi, figsize and
    vlims do not influence the data. *)
Record temp_plt := mkTemp { tp_it : nat; tp_what : list string }.
Fixpoint chars (s : string) : list string :=
  match s with EmptyString => [] | String a t => String a EmptyString :: chars t end.
(** Temp_plt() with its defaults: plot_what=('eps') is the string 'eps' *)
Definition Temp_plt_default : temp_plt := mkTemp 1 (chars "eps").

(* ------------------------------------------------------------------ *)
(** * simulation.py: plt_* *)

Definition s_field (s : sim) (nl : bool) : option vec :=
  (if nl then s_fields_nl s else s_fields s) (pol_comp (s_pol s)).
Definition s_arr {T} (s : sim) (v : nat -> T) : nd T := mkNd (s_Nx s) (s_Ny s) v.

(** simulation.py:352-378, plt_abs; np.abs(None) is a TypeError *)
Definition plt_abs (nl outline : bool) (vmin vmax : option R) (tiled : nat) (s : sim) : res picture :=
  match s_field s false with
  | None => Raise ValueError (* 355-356 *)
  | Some _ =>
      rbind (nd_tile tiled (s_eps s)) (fun eps => (* 358-359 *)
      match s_field s nl with
      | None => Raise TypeError (* 362 *)
      | Some F =>
          rbind (nd_tile tiled (nd_map Cmod (s_arr s F))) (fun fv => (* 362-366 *)
          rbind (match vmax with Some v => Ok v | None => nd_max fv end) (fun vmax => (* 370-371 *)
          Ok (plt_base fv (nd_map Rabs eps) (match vmin with Some v => v | None => 0%R end) vmax outline)))
      end)
  end.

(** simulation.py:380-402, plt_re *)
Definition plt_re (nl outline : bool) (tiled : nat) (s : sim) : res picture :=
  rbind (nd_tile tiled (s_eps s)) (fun eps => (* 383-384 *)
  match s_field s false with
  | None => Raise ValueError (* 386-387 *)
  | Some _ =>
      match s_field s nl with
      | None => Raise TypeError (* 397: np.abs of an array holding None *)
      | Some F =>
          rbind (nd_tile tiled (nd_map Re (s_arr s F))) (fun fv =>
          rbind (nd_max (nd_map Rabs fv)) (fun v => (* 397-398 *)
          Ok (plt_base fv (nd_map Rabs eps) (- v) v outline)))
      end
  end).

(** simulation.py:404-430, plt_diff; with normalize and a linear field that is 0 everywhere
    the data would be nan: the model stops *)
Definition plt_diff (outline : bool) (vmax : option R) (tiled : nat) (normalize : bool) (s : sim) : res picture :=
  rbind (nd_tile tiled (s_eps s)) (fun eps =>
  match s_field s false with
  | None => Raise TypeError (* 414 *)
  | Some F =>
      match s_field s true with
      | None => Raise TypeError (* 416 *)
      | Some G =>
          rbind (nd_tile tiled (nd_map Cmod (s_arr s F))) (fun fl =>
          rbind (nd_tile tiled (nd_map Cmod (s_arr s G))) (fun fn =>
          let d := mkNd (nd_nx fl) (nd_ny fl) (fun k => (nd_buf fl k - nd_buf fn k)%R) in (* 420 *)
          rbind (if normalize
                 then rbind (nd_max (nd_map Rabs fl)) (fun m =>
                        if Req_EM_T m 0 then Raise NotRepresentable else Ok (nd_map (fun x => x / m)%R d))
                 else Ok d) (fun d => (* 421-422 *)
          rbind (match vmax with Some v => Ok v | None => nd_max (nd_map Rabs d) end) (fun v => (* 425-427 *)
          Ok (plt_base d (nd_map Rabs eps) (- v) v outline)))))
      end
  end).

(** simulation.py:432-445, plt_eps *)
Definition plt_eps (outline : bool) (tiled : nat) (s : sim) : res picture :=
  rbind (nd_tile tiled (s_eps s)) (fun eps =>
  rbind (nd_min (nd_map Rabs eps)) (fun vmin =>
  rbind (nd_max (nd_map Rabs eps)) (fun vmax =>
  Ok (plt_base (nd_map Rabs eps) (nd_map Rabs eps) vmin vmax outline)))).

(* ------------------------------------------------------------------ *)
(** * optimization.py: plt_objs *)

(** a quotient of two numpy floats; None: inf or nan *)
Definition quotient (a b : R) : option R := if Req_EM_T b 0 then None else Some (a / b)%R.

(** optimization.py:449-467, plt_objs(norm, ax): the points handed to ax.plot.  [ax] is
    false for the default ax=None, whose attribute set_ylabel does not exist.  When the lists
    have different lengths, zip drops the end of the longer one, and ax.plot then refuses
    the two lengths (ValueError). *)
Inductive norm_by := NoNorm | ByField | ByPower.
Definition obj_scaled (norm : norm_by) (o : opt) : list (option R) :=
  match norm with
  | NoNorm => List.map Some (o_objs o)
  | ByField => List.map (fun p => quotient (fst p) (snd p)) (List.combine (o_objs o) (o_src_amps o))
  | ByPower => List.map (fun p => quotient (fst p) (snd p ^ 2)%R) (List.combine (o_objs o) (o_src_amps o))
  end.
Definition plt_objs (norm : norm_by) (ax : bool) (o : opt) : res (list (nat * option R)) :=
  if ax then
    if Nat.eqb (List.length (obj_scaled norm o)) (List.length (o_objs o))
    then Ok (List.combine (List.seq 1 (List.length (o_objs o))) (obj_scaled norm o))
    else Raise ValueError
  else Raise AttributeError.

(* ------------------------------------------------------------------ *)
(** * optimization.py: run with temp_plt *)

(** a panel of the figure drawn by plot_it *)
Inductive panel := PanEps (p : picture) | PanObjs (l : list (nat * option R)) | PanLin (p : picture) | PanNl (p : picture).
(** the figure: position and contents of the panels that were drawn *)
Definition page := list (nat * panel).

(** A directory: the names in it; regular files hold a page written by plot_it or
    something else, directories are not looked into. *)
Inductive entry := EPage (p : page) | EFile | EDir.
Definition folder := list (string * entry).
Definition is_dir (x : string * entry) : bool := match snd x with EDir => true | _ => false end.

(** optimization.py:592-602, _check_temp_plt: regular files are removed *)
Definition clear_folder (d : folder) : folder := List.filter is_dir d.

(** 'it%06d.png' % iteration, optimization.py:374 *)
Fixpoint zeros (n : nat) : string := match n with O => "" | S m => "0" ++ zeros m end.
Definition dec (n : nat) : string := NilEmpty.string_of_uint (Nat.to_uint n).
Definition pic_name (n : nat) : string :=
  "it" ++ zeros (6 - String.length (dec n)) ++ dec n ++ ".png".

(** plt.savefig(name), optimization.py:375: overwrites a file; refused when the name is a
    directory (an OSError, which the model does not distinguish) *)
Definition savefig (name : string) (p : page) (d : folder) : res folder :=
  match List.find (fun x => String.eqb (fst x) name) d with
  | Some (_, EDir) => Raise NotRepresentable
  | _ => Ok ((name, EPage p) :: List.filter (fun x => negb (String.eqb (fst x) name)) d)
  end.

(** optimization.py:350-372, one pass of the loop over plot_what; [single]: plt.subplots
    returned one Axes object instead of an array (1 plot), so that axs[n] is a TypeError *)
Definition draw_panel (single : bool) (vmin vmax : R) (o : opt) (s : sim) (n : nat) (what : string) : res page :=
  let guard := fun r : res panel => if single then Raise TypeError else rbind r (fun p => Ok [(n, p)]) in
  if String.eqb what "eps" then guard (rbind (plt_eps false 1 s) (fun p => Ok (PanEps p)))
  else if String.eqb what "of" then guard (rbind (plt_objs NoNorm true o) (fun l => Ok (PanObjs l)))
  else if String.eqb what "elin" then guard (rbind (plt_abs false true (Some vmin) (Some vmax) 1 s) (fun p => Ok (PanLin p)))
  else if String.eqb what "enl" then guard (rbind (plt_abs true true (Some vmin) (Some vmax) 1 s) (fun p => Ok (PanNl p)))
  else Ok [].
Fixpoint draw_panels (single : bool) (vmin vmax : R) (o : opt) (s : sim) (n : nat) (l : list string) : res page :=
  match l with
  | [] => Ok []
  | w :: t => rbind (draw_panel single vmin vmax o s n w) (fun p =>
              rbind (draw_panels single vmin vmax o s (S n) t) (fun q => Ok (p ++ q)%list))
  end.

(** optimization.py:324-375, plot_it: the figure.  fields['Ez'] is read whatever the
    polarization (328); np.sqrt of a negative W_in is nan, [sqrt] of it is 0 here. *)
Definition plot_page (tp : temp_plt) (o : opt) (s : sim) : res page :=
  match s_W_in s with
  | Absent | PyNone => Raise AttributeError (* 331 *)
  | Val W =>
      match s_fields s Ez with
      | None => Raise TypeError (* 332 *)
      | Some E =>
          rbind (nd_max (nd_map Cmod (s_arr s E))) (fun m =>
          match tp_what tp with
          | [] => Raise ValueError (* subplots(1, 0) *)
          | l => draw_panels (Nat.eqb (List.length l) 1) (4 * sqrt W)%R (m / 1.5)%R o s 0 l
          end)
      end
  end.

Definition ostate := ((opt * sim) * folder)%type.
(** a method that does not touch the folder *)
Definition off_disk {A} (m : St (opt * sim) A) : St ostate A := fun st =>
  let '(st1, r) := m (fst st) in ((st1, snd st), r).
(** plot_it(iteration) *)
Definition plot_it (tp : temp_plt) (iteration : nat) : St ostate unit := fun st =>
  match plot_page tp (fst (fst st)) (snd (fst st)) with
  | Raise x => (st, Raise x)
  | Ok p => match savefig (pic_name iteration) p (snd st) with
            | Raise x => (st, Raise x)
            | Ok d => ((fst st, d), Ok tt)
            end
  end.
(** np.mod(iteration, it_plot) == 0, optimization.py:232; numpy's remainder by 0 is 0 *)
Definition due (tp : temp_plt) (iteration : nat) : bool :=
  Nat.eqb (tp_it tp) 0 || Nat.eqb (iteration mod tp_it tp) 0.
Definition maybe_plot (tp : option temp_plt) (iteration : nat) : St ostate unit :=
  match tp with
  | None => ret tt
  | Some t => if due t iteration then plot_it t iteration else ret tt
  end.

(** optimization.py:215-235, _run_GD; iterations [iteration], [iteration]+1, ..., n of them *)
Fixpoint run_GD_plt (e : env) (tp : option temp_plt) (step_size : R) (n iteration : nat) : St ostate unit :=
  match n with
  | O => ret tt
  | S m =>
      J <- off_disk (compute_J e) ;;
      off_disk (modS (fun st => (push_obj J (fst st), snd st))) ;;;
      off_disk (set_source_amplitude e) ;;;
      g <- off_disk (compute_dJ e) ;;
      maybe_plot tp iteration ;;;
      off_disk (update_rho g step_size) ;;;
      run_GD_plt e tp step_size m (S iteration)
  end.

(** optimization.py:237-262, _run_ADAM *)
Fixpoint run_ADAM_plt (e : env) (tp : option temp_plt) (step_size beta1 beta2 : R) (n iteration : nat)
    (mopt vopt : rvec) : St ostate unit :=
  match n with
  | O => ret tt
  | S m =>
      J <- off_disk (compute_J e) ;;
      off_disk (modS (fun st => (push_obj J (fst st), snd st))) ;;;
      off_disk (set_source_amplitude e) ;;;
      g <- off_disk (compute_dJ e) ;;
      let mopt' := fun k => adam_m beta1 (mopt k) (g k) in
      let vopt' := fun k => adam_v beta2 (vopt k) (g k) in
      maybe_plot tp iteration ;;;
      off_disk (update_rho (fun k => adam_step beta1 beta2 (mopt' k) (vopt' k) iteration) step_size) ;;;
      run_ADAM_plt e tp step_size beta1 beta2 m (S iteration) mopt' vopt'
  end.

(** optimization.py:294-304, the calls of scipy with the pictures of the callback;
    [k] is iter_list[0] *)
Fixpoint lb_serve_all_plt (e : env) (tp : option temp_plt) (k : nat) (l : list lb_call) : St ostate (list lb_out) :=
  match l with
  | [] => ret []
  | c :: t =>
      o <- off_disk (lb_serve e c) ;;
      match c with
      | CallBack _ => maybe_plot tp k ;;; os <- lb_serve_all_plt e tp (S k) t ;; ret (o :: os)
      | _ => os <- lb_serve_all_plt e tp k t ;; ret (o :: os)
      end
  end.
Definition run_LBFGS_plt (e : env) (tp : option temp_plt) (calls : list lb_call) (x_final : rvec) : St ostate unit := fun st =>
  match s_rho (snd (fst st)) with
  | Absent | PyNone => (st, Raise AttributeError)
  | Val _ => (lb_serve_all_plt e tp 0 calls ;;; off_disk (set_design_region x_final)) st
  end.

(** optimization.py:184-213, run(..., temp_plt): the folder is cleared first (192) *)
Definition run_plt (e : env) (tp : option temp_plt) (m : method) (Nsteps : nat) (step_size beta1 beta2 : R)
  : St ostate unit := fun st0 =>
  let st := (fst st0, match tp with None => snd st0 | Some _ => clear_folder (snd st0) end) in
  match s_rho (snd (fst st)) with
  | Absent => (st, Raise AttributeError) (* 195 *)
  | PyNone => (st, Raise TypeError) (* 197 *)
  | Val _ =>
      let st1 := ((upd_current false (fst (fst st)), snd (fst st)), snd st) in (* 199 *)
      match m with
      | MLBFGS calls x => run_LBFGS_plt e tp calls x st1
      | MGD => run_GD_plt e tp step_size Nsteps 0 st1
      | MADAM => run_ADAM_plt e tp step_size beta1 beta2 Nsteps 0 (fun _ => 0%R) (fun _ => 0%R) st1
      | MOther => (st1, Raise ValueError)
      end
  end.
