(** C96: the sources read from the initial conditions. *)
From Coq Require Import List QArith.
From Verif Require Import Bpass_Model Sources_Model StarSources_Model
  StartUp_Spec StarSources_Proofs.
Import ListNotations.
Open Scope nat_scope.

(** C96.  If the four data sets describe the same stars, in the same
    order over all files, then the ranks together obtain exactly one
    source for each star that has formed, in that order, with the star's
    own position and the rate for its own age, metallicity and mass.
    The data sets may be cut into files in different ways. *)
Theorem C96_sources :
  forall (age : Q -> option Q) (escape : Q) stars fp fz fa fm num_ranks,
  1 <= num_ranks ->
  concat fp = map st_pos stars -> concat fz = map st_metallicity stars ->
  concat fa = map st_scale stars -> concat fm = map st_mass stars ->
  (forall st, In st stars -> formed st = true -> age (st_scale st) <> None) ->
  exists outs, length outs = num_ranks
    /\ (forall rank, rank < num_ranks -> exists out,
          nth_error outs rank = Some out
          /\ read_sources age escape fp fz fa fm num_ranks rank = Some out)
    /\ Forall2 (source_of age escape) (filter formed stars) (concat outs).
Proof. exact read_sources_spec. Qed.
Print Assumptions C96_sources.

(** C96.  If the cosmology cannot tell the age of a formed star, some
    rank panics. *)
Theorem C96_panics :
  forall (age : Q -> option Q) (escape : Q) stars fp fz fa fm num_ranks st,
  1 <= num_ranks ->
  concat fp = map st_pos stars -> concat fz = map st_metallicity stars ->
  concat fa = map st_scale stars -> concat fm = map st_mass stars ->
  In st stars -> formed st = true -> age (st_scale st) = None ->
  exists rank, rank < num_ranks
    /\ read_sources age escape fp fz fa fm num_ranks rank = None.
Proof. exact read_sources_panics. Qed.
Print Assumptions C96_panics.

(** Three entries in two files on two ranks; the second is wind.  Each
    rank obtains the source of the star that it reads. *)
Definition C96_stars : list star :=
  [Star (1, 0, 0)%Q (1 # 100) (1 # 2) 3; Star (2, 0, 0)%Q (1 # 100) (-1 # 2) 5;
   Star (3, 0, 0)%Q (1 # 100) (1 # 4) 7].
Example C96_example :
  map (fun rank => option_map (map (fun s => s_pos s))
    (read_sources (fun a => if Qle_bool a 0 then None else Some (1 - a)%Q) (1 # 2)
       [[(1, 0, 0)%Q]; [(2, 0, 0)%Q; (3, 0, 0)%Q]]
       [[(1 # 100)%Q; (1 # 100)%Q]; [(1 # 100)%Q]]
       [[(1 # 2)%Q]; [(-1 # 2)%Q; (1 # 4)%Q]] [[]; [3%Q; 5%Q; 7%Q]] 2 rank)) [0; 1]
  = [Some [(1, 0, 0)%Q]; Some [(3, 0, 0)%Q]].
Proof. vm_compute. reflexivity. Qed.
Example C96_example_hypotheses :
  concat [[(1, 0, 0)%Q]; [(2, 0, 0)%Q; (3, 0, 0)%Q]] = map st_pos C96_stars
  /\ concat [[]; [3%Q; 5%Q; 7%Q]] = map st_mass C96_stars
  /\ forall st, In st C96_stars -> formed st = true ->
     (fun a => if Qle_bool a 0 then None else Some (1 - a)%Q) (st_scale st) <> None.
Proof.
  split; [reflexivity|]. split; [reflexivity|].
  intros st [<-|[<-|[<-|[]]]] H; vm_compute in H |- *; discriminate.
Qed.

(** C96.  It is not so that missing data are noticed: when one file lacks
    one of the data sets, a star is given the mass of another. *)
Theorem C96_missing_data_noticed_refuted :
  exists (age : Q -> option Q) (a b : star) s,
  read_sources age 1 [[st_pos a]; [st_pos b]]
    [[st_metallicity a]; [st_metallicity b]]
    [[st_scale a]; [st_scale b]] [[]; [st_mass b]] 1 0 = Some [s]
  /\ s_pos s = st_pos a /\ s_pos s <> st_pos b
  /\ ~ source_of age 1 a s.
Proof.
  exists (fun _ => Some 0%Q),
    (Star (1, 0, 0)%Q (1 # 100) (1 # 2) 3), (Star (3, 0, 0)%Q (1 # 100) (1 # 2) 7).
  eexists. split; [vm_compute; reflexivity|].
  split; [reflexivity|]. split; [simpl; discriminate|].
  intros (_ & x & r & E1 & E2 & E3). injection E1 as <-.
  vm_compute in E2. injection E2 as <-. vm_compute in E3. discriminate E3.
Qed.
Print Assumptions C96_missing_data_noticed_refuted.
