(** Machine learning potentials in the Phono3py class and in the commands, and the dataset for fc2.

    Sources: phono3py/api_phono3py.py, phono3py/cui/create_force_constants.py, phono3py/cui/phono3py_script.py,
    phono3py/cui/load.py. A potential is a function of the positions of a supercell giving its energy and forces;
    training (PhonopyMLP.develop), saving and loading are phonopy's and are function arguments or files. PhonopyMLP.evaluate
    evaluates supercell by supercell; an entry None in its list is an exception. Logging is left out. *)
From Coq Require Import ZArith QArith List Bool String Ascii.
From Verif Require Import Base DsModel.
Import ListNotations.
Open Scope Z_scope.
Local Notation length := List.length.

Inductive err := RuntimeErr | KeyErr | TypeErr | AttributeErr | NotFound | Other.
Inductive outcome := Returned | Raised (e : err).
Definition potential := conf -> Q * conf.

(** ** Energies in the dataset *)
(** api_phono3py.py 2600-2623 (_set_forces_energies), target "supercell_energies"; as [set_forces] of DsModel *)
Fixpoint eset_first (vals : list Q) (fs : list fir) : list fir * option (list Q) :=
  match fs with
  | [] => ([], Some vals)
  | f :: t =>
      match vals with
      | [] => (fs, None)
      | v :: vals' => let '(t', r) := eset_first vals' t in
          (Fir (f_num f) (f_disp f) (f_id f) (f_forces f) (Some v) (f_second f) :: t', r)
      end
  end.
Fixpoint eset_secs (vals : list Q) (ss : list sec) : list sec * option (list Q) :=
  match ss with
  | [] => ([], Some vals)
  | s :: t =>
      match vals with
      | [] => (ss, None)
      | v :: vals' => let '(t', r) := eset_secs vals' t in
          (Sec (s_num s) (s_disp s) (s_dist s) (s_incl s) (s_id s) (s_forces s) (Some v) :: t', r)
      end
  end.
Fixpoint eset_second (vals : list Q) (fs : list fir) : list fir * option (list Q) :=
  match fs with
  | [] => ([], Some vals)
  | f :: t =>
      let '(ss, r) := eset_secs vals (f_second f) in
      let f' := Fir (f_num f) (f_disp f) (f_id f) (f_forces f) (f_energy f) ss in
      match r with
      | None => (f' :: t, None)
      | Some vals' => let '(t', r') := eset_second vals' t in (f' :: t', r')
      end
  end.
Definition set_energies (vals : list Q) (d : dataset) : dataset * bool :=
  match d with
  | Type1 n fs =>
      let '(fs1, r) := eset_first vals fs in
      match r with
      | None => (Type1 n fs1, false)
      | Some vals' => let '(fs2, r2) := eset_second vals' fs1 in (Type1 n fs2, match r2 with Some _ => true | None => false end)
      end
  | Type2 None None _ => (d, false)
  | Type2 x f _ => (Type2 x f (Some vals), true)
  end.
(** api_phono3py.py 2560-2598 (_get_forces_energies), target "supercell_energies", with forces_in_dataset (dataset.py 122-128).
    The outer None is an exception (KeyError of an element without energy), Some None the returned None. *)
Definition get_energies (d : dataset) : option (option (list Q)) :=
  match d with
  | Type2 _ None _ => Some None
  | Type2 _ (Some _) e => Some e
  | Type1 _ [] => None
  | Type1 _ ((f0 :: _) as fs) =>
      match f_forces f0 with
      | None => Some None
      | Some _ => option_map Some (sequence (map f_energy fs ++ flat_map (fun f => map s_energy (f_second f)) fs))
      end
  end.
(** dataset.py 122-128 (forces_in_dataset); an empty list first_atoms (IndexError) counts as no forces *)
Definition forces_in (d : option dataset) : bool :=
  match d with
  | None => false
  | Some (Type2 _ (Some _) _) => true
  | Some (Type1 _ (f :: _)) => match f_forces f with Some _ => true | None => false end
  | _ => false
  end.

(** ** The dataset for fc2. [natom] atoms in the phonon supercell. *)
(** api_phono3py.py 966-981 (phonon_displacements, getter): None is an exception *)
Definition get_pdisplacements (natom : nat) (d : dataset) : option (list conf) :=
  match d with
  | Type1 _ firsts => sequence (map (fun f => put_at (zeros natom) (f_num f) (f_disp f)) firsts)
  | Type2 disps _ _ => disps
  end.
(** api_phono3py.py 984-998 (phonon_displacements, setter); [smat]: phonon_supercell_matrix is given *)
Definition set_pdisplacements (smat : bool) (natom : nat) (disps : list conf) (d : option dataset) : option dataset * bool :=
  if negb smat then (d, false) else
  if negb (shape_ok natom disps) then (d, false) else
  match d with
  | None => (Some (Type2 (Some disps) None None), true)
  | Some (Type1 _ _) => (d, false)
  | Some (Type2 _ f e) => (Some (Type2 (Some disps) f e), true)
  end.
(** zip of the elements and the values: the rest of either is left *)
Fixpoint zip_forces (vals : list conf) (fs : list fir) : list fir :=
  match fs, vals with
  | f :: t, v :: vals' => Fir (f_num f) (f_disp f) (f_id f) (Some v) (f_energy f) (f_second f) :: zip_forces vals' t
  | _, _ => fs
  end.
Fixpoint zip_energies (vals : list Q) (fs : list fir) : list fir :=
  match fs, vals with
  | f :: t, v :: vals' => Fir (f_num f) (f_disp f) (f_id f) (f_forces f) (Some v) (f_second f) :: zip_energies vals' t
  | _, _ => fs
  end.
(** api_phono3py.py 2651-2676 (_set_phonon_forces_energies) for both targets *)
Definition set_pforces (natom : nat) (vals : list conf) (d : dataset) : dataset * bool :=
  match d with
  | Type1 n fs => (Type1 n (zip_forces vals fs), true)
  | Type2 (Some x) f e =>
      if (Nat.eqb (length vals) (length x) && shape_ok natom vals)%bool then (Type2 (Some x) (Some vals) e, true) else (d, false)
  | Type2 None _ _ => (d, false)
  end.
Definition set_penergies (vals : list Q) (d : dataset) : dataset * bool :=
  match d with
  | Type1 n fs => (Type1 n (zip_energies vals fs), true)
  | Type2 (Some x) f e => if Nat.eqb (length vals) (length x) then (Type2 (Some x) f (Some vals), true) else (d, false)
  | Type2 None _ _ => (d, false)
  end.
(** api_phono3py.py 2625-2649 (_get_phonon_forces_energies): the values that exist, None if there are none *)
Definition present {X} (l : list (option X)) : list X := flat_map (fun o => match o with Some x => [x] | None => [] end) l.
Definition not_empty {X} (l : list X) : option (list X) := match l with [] => None | _ => Some l end.
Definition get_pforces (d : dataset) : option (list conf) :=
  match d with Type2 _ f _ => f | Type1 _ fs => not_empty (present (map f_forces fs)) end.
Definition get_penergies (d : dataset) : option (list Q) :=
  match d with Type2 _ _ e => e | Type1 _ fs => not_empty (present (map f_energy fs)) end.

(** ** The object. [fc3]: dataset of fc3 and its supercells; [smat]: phonon_supercell_matrix is given; [pref], [pdata], [pcache]:
    positions of the phonon supercell, its dataset and displaced supercells; [mdata], [pmdata]: mlp_dataset, phonon_mlp_dataset. *)
Inductive mlp_dict := NotDict | Dict (disps forces : option (list conf)) (energies : option (list Q)) (supercell_energy : bool).
Record st := St { fc3 : obj; smat : bool; pref : conf; pdata : option dataset; pcache : option (list conf);
                  mlp : option potential; pmlp : option potential; mdata : option mlp_dict; pmdata : option mlp_dict }.
Definition with_fc3 (s : st) (o : obj) := St o (smat s) (pref s) (pdata s) (pcache s) (mlp s) (pmlp s) (mdata s) (pmdata s).
Definition with_ph (s : st) (d : option dataset) (c : option (list conf)) := St (fc3 s) (smat s) (pref s) d c (mlp s) (pmlp s) (mdata s) (pmdata s).
Definition with_mlp (s : st) (p : option potential) := St (fc3 s) (smat s) (pref s) (pdata s) (pcache s) p (pmlp s) (mdata s) (pmdata s).
Definition with_pmlp (s : st) (p : option potential) := St (fc3 s) (smat s) (pref s) (pdata s) (pcache s) (mlp s) p (mdata s) (pmdata s).
Definition with_mdata (s : st) (d : option mlp_dict) := St (fc3 s) (smat s) (pref s) (pdata s) (pcache s) (mlp s) (pmlp s) d (pmdata s).

(** api_phono3py.py 2704-2718 (_check_mlp_dataset), statement by statement *)
Definition check_mlp_dataset (d : mlp_dict) : outcome :=
  match d with
  | NotDict => Raised TypeErr
  | Dict None _ _ _ => Raised RuntimeErr
  | Dict (Some x) None _ _ => Raised RuntimeErr
  | Dict (Some x) (Some f) e k =>
      if k then Raised RuntimeErr
      else if negb (Nat.eqb (length x) (length f)) then Raised RuntimeErr
      else match e with
           | None => Raised KeyErr
           | Some e => if negb (Nat.eqb (length x) (length e)) then Raised RuntimeErr else Returned
           end
  end.
(** 699-702 (mlp_dataset, setter) *)
Definition set_mlp_dataset (s : st) (d : mlp_dict) : st * outcome :=
  match check_mlp_dataset d with Returned => (with_mdata s (Some d), Returned) | r => (s, r) end.
(** the dictionary of the dataset of fc3 *)
Definition dict_of (d : dataset) : mlp_dict := match d with Type1 _ _ => Dict None None None false | Type2 x f e => Dict x f e false end.

(** 670-686 (phonon_dataset, setter); an exception leaves the assignments made before *)
Definition set_pdataset (s : st) (a : option dataset) : st * bool :=
  match a with
  | None => (with_ph s None None, true)
  | Some (Type1 n fs) => (with_ph s (Some (Type1 n fs)) None, true)
  | Some (Type2 (Some x) f e) =>
      let '(d1, ok1) := set_pdisplacements (smat s) (length (pref s)) x (Some (Type2 None None None)) in
      if negb ok1 then (with_ph s d1 (pcache s), false) else
      match d1 with
      | None => (s, false)
      | Some d1 =>
          let '(d2, ok2) := match f with Some v => set_pforces (length (pref s)) v d1 | None => (d1, true) end in
          if negb ok2 then (with_ph s (Some d2) None, false) else
          let '(d3, ok3) := match e with Some v => set_penergies v d2 | None => (d2, true) end in
          (with_ph s (Some d3) None, ok3)
      end
  | Some (Type2 None _ _) => (s, false)
  end.
(** 788-803 (phonon_supercells_with_displacements): built on demand and kept; the second None: no dataset or an exception *)
Definition phonon_supercells (s : st) : st * option (list conf) :=
  match pcache s with
  | Some c => (s, Some c)
  | None => match bind (pdata s) (build_singles (pref s)) with
            | Some c => (with_ph s (pdata s) (Some c), Some c)
            | None => (s, None)
            end
  end.

Section Mlp.
Variable train : mlp_dict -> conf -> potential.
(** 2211-2238 (develop_mlp) and 2275-2302 (develop_phonon_mlp) *)
Definition develop_mlp (s : st) : st * outcome :=
  match mdata s with None => (s, Raised RuntimeErr) | Some d => (with_mlp s (Some (train d (o_ref (fc3 s)))), Returned) end.
Definition develop_phonon_mlp (s : st) : st * outcome :=
  match pmdata s with None => (s, Raised RuntimeErr) | Some d => (with_pmlp s (Some (train d (pref s))), Returned) end.
(** files of the working directory in the order of glob; a file of a potential *)
Definition files := list (string * potential).
Fixpoint lookup (fs : files) (n : string) : option potential :=
  match fs with [] => None | (m, p) :: t => if String.eqb m n then Some p else lookup t n end.
Definition write (fs : files) (n : string) (p : potential) : files := (n, p) :: filter (fun x => negb (String.eqb (fst x) n)) fs.
(** 2240-2245 (save_mlp) and 2304-2309 (save_phonon_mlp) *)
Definition save_mlp (s : st) (fs : files) (n : string) : files * outcome :=
  match mlp s with None => (fs, Raised RuntimeErr) | Some p => (write fs n p, Returned) end.
Definition save_phonon_mlp (s : st) (fs : files) (n : string) : files * outcome :=
  match mlp s with
  | None => (fs, Raised RuntimeErr)
  | Some _ => match pmlp s with None => (fs, Raised AttributeErr) | Some p => (write fs n p, Returned) end
  end.
(** 2247-2250 (load_mlp) *)
Definition load_mlp (s : st) (fs : files) (n : string) : st * outcome :=
  match lookup fs n with None => (s, Raised NotFound) | Some p => (with_mlp s (Some p), Returned) end.

Definition evaluate (p : potential) (cells : list (option conf)) : option (list Q * list conf) :=
  option_map (fun cs => (map (fun c => fst (p c)) cs, map (fun c => snd (p c)) cs)) (sequence cells).
(** 2252-2273 (evaluate_mlp): the energies are assigned first *)
Definition evaluate_mlp (s : st) : st * outcome :=
  match mlp s with
  | None => (s, Raised RuntimeErr)
  | Some p =>
      let '(o, cells) := supercells_with_displacements (fc3 s) in
      let s := with_fc3 s o in
      match bind cells (evaluate p), o_data o with
      | Some (es, fs), Some d =>
          let '(d1, ok1) := set_energies es d in
          if negb ok1 then (with_fc3 s (Obj (o_ref o) (Some d1) (o_cache o)), Raised Other) else
          let '(d2, ok2) := set_forces fs d1 in
          (with_fc3 s (Obj (o_ref o) (Some d2) (o_cache o)), if ok2 then Returned else Raised Other)
      | _, _ => (s, Raised Other)
      end
  end.
(** 2316-2343 (evaluate_phonon_mlp) *)
Definition evaluate_phonon_mlp (s : st) : st * outcome :=
  match mlp s, pmlp s with
  | None, None => (s, Raised RuntimeErr)
  | m, q =>
      let '(s, cells) := phonon_supercells s in
      match cells, (match q with Some p => Some p | None => m end), pdata s with
      | Some cs, Some p, Some d =>
          let '(d1, ok1) := set_penergies (map (fun c => fst (p c)) cs) d in
          if negb ok1 then (with_ph s (Some d1) (pcache s), Raised Other) else
          let '(d2, ok2) := set_pforces (length (pref s)) (map (fun c => snd (p c)) cs) d1 in
          (with_ph s (Some d2) (pcache s), if ok2 then Returned else Raised Other)
      | _, _, _ => (s, Raised RuntimeErr)
      end
  end.

(** generate_displacements 1309-1358: [d] and [pd] are the datasets generated for fc3 and fc2 *)
Definition generate (s : st) (d pd : dataset) : st :=
  let s := with_fc3 s (generate_displacements (fc3 s) d) in
  match smat s, pdata s with true, None => with_ph s (Some pd) None | _, _ => s end.

(** pathlib: suffix of a file name (from the last dot, not the first or the last character) *)
Fixpoint last_dot (n : list ascii) (i : nat) : option nat :=
  match n with
  | [] => None
  | c :: t => match last_dot t (S i) with Some k => Some k | None => if Ascii.eqb c "." then Some i else None end
  end.
Definition suffix_of (n : string) : string :=
  match last_dot (list_ascii_of_string n) 0 with
  | Some i => if (Nat.ltb 0 i && Nat.ltb i (String.length n - 1))%bool then substring i (String.length n - i) n else ""%string
  | None => ""%string
  end.
Definition known_suffixes : list string := [".yaml"; ".pmlp"; ".xz"; ".gz"; ".bz2"; "lzma"]%string.
Definition glob (fs : files) (n : string) : list string := filter (prefix n) (map fst fs).
(** create_force_constants.py 538-560: the name given to load_mlp, None if nothing is loaded *)
Fixpoint find_mlp (fs : files) (names : list string) : option string :=
  match names with
  | [] => None
  | n :: t => match glob fs n with
              | f :: _ => if existsb (String.eqb (suffix_of f)) known_suffixes then Some n else find_mlp fs t
              | [] => find_mlp fs t
              end
  end.
(** create_force_constants.py 520-622 (run_pypolymlp_to_compute_forces). [prepare]: the datasets generated when prepare_dataset
    is true. The argument [mlp_filename] is overwritten by the loop 539 and by 561. *)
Definition compute_forces (fs : files) (s : st) (mlp_filename : option string) (prepare : option (dataset * dataset)) : files * st * outcome :=
  let '(fs, s, r) :=
    match find_mlp fs ["polymlp.yaml"; "phono3py.pmlp"]%string with
    | Some n => let '(s, r) := load_mlp s fs n in (fs, s, r)
    | None =>
        match mdata s with
        | None => (fs, s, Raised RuntimeErr)
        | Some _ => let '(s, r) := develop_mlp s in
                    match r with
                    | Raised _ => (fs, s, r)
                    | Returned => let '(fs, r) := save_mlp s fs "polymlp.yaml" in (fs, s, r)
                    end
        end
    end in
  match r, prepare with
  | Returned, Some (d, pd) => let '(s, r) := evaluate_mlp (generate s d pd) in (fs, s, r)
  | _, _ => (fs, s, r)
  end.

(** What is left for the force constants (load.py 441-494 with _store_force_constants, phono3py_script.py 591-652, and no file
    fc2.hdf5 or fc3.hdf5): from which dataset fc3 and fc2 are computed. *)
Definition fc3_from (s : st) : option dataset := if forces_in (o_data (fc3 s)) then o_data (fc3 s) else None.
Definition fc2_from (s : st) : option dataset :=
  let d := if smat s then pdata s else o_data (fc3 s) in if forces_in d then d else None.
Inductive ended := Stopped (e : err) | Trained | ExitOne | Computed (fc3_data fc2_data : dataset).
Definition constants (s : st) : ended :=
  match fc3_from s, fc2_from s with Some a, Some b => Computed a b | _, _ => ExitOne end.
(** phono3py_script.py 1174-1220: phono3py-load with --pypolymlp, from the object with the datasets read *)
Definition load_command (fs : files) (s : st) (prepare : option (dataset * dataset)) : files * st * ended :=
  let '(s, r) := match o_data (fc3 s) with
    | Some d => let '(s, r) := set_mlp_dataset s (dict_of d) in
                match r with Returned => (with_ph (with_fc3 s (fst (set_dataset (fc3 s) ANone))) (pdata s) None, r) | _ => (s, r) end
    | None => (s, Returned)
    end in
  match r with
  | Raised e => (fs, s, Stopped e)
  | Returned =>
      let '(fs, s, r) := compute_forces fs s None prepare in
      match r, prepare with
      | Raised e, _ => (fs, s, Stopped e)
      | Returned, None => (fs, s, Trained)
      | Returned, Some _ => (fs, s, constants s)
      end
  end.
(** load.py 358-376: phono3py.load with use_pypolymlp and produce_fc, no force constants read. The result: exception, or the
    datasets from which fc3 and fc2 are computed (None: that force constant stays None). *)
Definition load_function (fs : files) (s : st) : files * st * (err + option dataset * option dataset) :=
  let '(s, r) := match o_data (fc3 s) with
    | Some d => if forces_in (Some d) then
                  let '(s, r) := set_mlp_dataset s (dict_of d) in
                  match r with Returned => (with_ph (with_fc3 s (fst (set_dataset (fc3 s) ANone))) (pdata s) None, r) | _ => (s, r) end
                else (s, Returned)
    | None => (s, Returned)
    end in
  match r with
  | Raised e => (fs, s, inl e)
  | Returned =>
      let '(fs, s, r) := compute_forces fs s None None in
      match r with Raised e => (fs, s, inl e) | Returned => (fs, s, inr (fc3_from s, fc2_from s)) end
  end.
End Mlp.
