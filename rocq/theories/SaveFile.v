(** Model of [Controller.save] (nodefinder/search/_controller.py:307-321) at the
    level of single file-system operations, with every operation possibly failing
    and the process possibly dying after each of them. *)
From Coq Require Import String.
From Verif Require Import Base CoordSys CellList Values Container Queue Hdf5 Controller.
Open Scope list_scope.

Notation path := nat.
(** What a file holds: a complete HDF5 document, or anything else (an empty or
    partially written file). *)
Inductive content := Junk (n : nat) | Doc (t : tree).
Definition disk := path -> option content.
Definition put (d : disk) (p : path) (c : option content) : disk := fun q => if (q =? p)%nat then c else d q.

(** [except Exception] does not catch KeyboardInterrupt, SystemExit, ... *)
Definition is_exception (e : exn) : bool := match e with BaseExn _ => false | _ => true end.

(** What the operating system does during one call of [save]. *)
Record save_env := {
  e_open : res path;             (* NamedTemporaryFile: an exception, or the new file *)
  e_partial : list content;      (* contents of the temporary file while io.save writes it *)
  e_write : option exn;          (* exception raised by io.save *)
  e_order : list simplex -> list simplex;  (* enumeration of the running simplices *)
  e_rename : option exn;         (* exception raised by os.rename *)
  e_clear : option exn;          (* interrupt before needs_saving is cleared *)
  e_remove : option exn          (* exception raised by os.remove *)
}.

(** _controller.py:319-321: the [except] block.  Result: disk and exception. *)
Definition on_exception (env : save_env) (tmp : path) (d : disk) (e : exn) : disk * exn :=
  if is_exception e then
    match e_remove env with
    | None => (put d tmp None, e)
    | Some e' => (d, e')
    end
  else (d, e).

(** _controller.py:307-321.  Returns the disks after each operation (one of them is
    what is found after a crash) and, if the process survives, the disk, the state
    and the outcome. *)
Definition save (save_file : option path) (env : save_env) (d : disk) (s : controller_state)
    : list disk * (disk * controller_state * res unit) :=
  match save_file with
  | None => ([d], (d, s, Ok tt))
  | Some file =>
    if needs_saving s then
      match e_open env with
      | Err e => ([d], (d, s, Err e))
      | Ok tmp =>
        let d1 := put d tmp (Some (Junk 0)) in
        let writing := map (fun c => put d tmp (Some c)) (e_partial env) in
        let dw := last writing d1 in
        let fail (tr : list disk) (d : disk) (e : exn) : list disk * (disk * controller_state * res unit) :=
          let (d', e') := on_exception env tmp d e in (tr ++ [d'], (d', s, Err e')) in
        match e_write env with
        | Some e => fail (d :: d1 :: writing) dw e
        | None =>
          let d2 := put d tmp (Some (Doc (enc_state (e_order env) s))) in
          match e_rename env with
          | Some e => fail (d :: d1 :: writing ++ [d2]) d2 e
          | None =>
            let d3 := put (put d2 file (d2 tmp)) tmp None in
            match e_clear env with
            | Some e => fail (d :: d1 :: writing ++ [d2; d3]) d3 e
            | None => (d :: d1 :: writing ++ [d2; d3], (d3, clear_needs_saving s, Ok tt))
            end
          end
        end
      end
    else ([d], (d, s, Ok tt))
  end.

(** A process: the search and the disk.  Between saves the search makes progress;
    [save] runs without interruption in the same thread. *)
Record proc := mk_proc { x_disk : disk; x_ctrl : ctrl }.
Definition with_state (k : ctrl) (s : controller_state) : ctrl :=
  mk_ctrl s (k_tasks k) (k_phase k) (k_log k) (k_file k).
