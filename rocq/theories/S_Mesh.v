(** Specification of source meshes. *)
From Verif Require Import Base M_Graph S_Graph S_Color M_Mesh.

(** Element and node vertices; loads ([1] when absent). *)
Definition elem (m : mesh) (v : Z) : Prop := velmbas m <= v < velmnnd m.
Definition node (m : mesh) (v : Z) : Prop := vnodbas m <= v < vnodnnd m.
Definition mload (t : option (Z * list Z)) (v : Z) : Z :=
  match t with None => 1 | Some t => at_ (fst t) (snd t) v end.
(** [x] and [y] are tied by an arc *)
Definition incident (m : mesh) (x y : Z) : Prop := adjacent (mgraph m) x y.
Definition mdegree (m : mesh) (v : Z) : Z := vend (mgraph m) v - vert (mgraph m) v.

(** A consistent mesh: elements and nodes have consecutive numbers, one range
    after the other, from the base on; arcs form a consistent graph and tie
    elements to nodes only; loads are at least one and summed up; isolated
    elements are counted. *)
Record mesh_valid (m : mesh) : Prop := {
  mv_base : 0 <= mbase m /\ mbase m = Z.min (velmbas m) (vnodbas m);
  mv_elm : 0 <= velmnbr m /\ velmnnd m = velmbas m + velmnbr m;
  mv_nod : 0 <= vnodnbr m /\ vnodnnd m = vnodbas m + vnodnbr m;
  mv_order : velmnnd m = vnodbas m \/ vnodnnd m = velmbas m;
  mv_graph : graph_valid (mgraph m);
  mv_tied : forall x y, incident m x y -> (elem m x <-> node m y);
  mv_velo : forall v, elem m v -> 1 <= mload (mvelo m) v;
  mv_vnlo : forall v, node m v -> 1 <= mload (mvnlo m) v;
  mv_velosum : mvelosum m = zsum (velmbas m) (velmnnd m) (mload (mvelo m));
  mv_vnlosum : mvnlosum m = zsum (vnodbas m) (vnodnnd m) (mload (mvnlo m));
  mv_isol : veisnbr m = zcount (velmbas m) (velmnnd m) (fun v => mdegree m v =? 0) }.

(** All arrays have the cells that are looked up *)
Record mesh_readable (m : mesh) : Prop := {
  mr_graph : graph_readable (mgraph m);
  mr_velo : forall o t, mvelo m = Some (o, t) -> o <= velmbas m /\ velmnnd m <= o + zlen t \/ velmnbr m = 0;
  mr_vnlo : forall o t, mvnlo m = Some (o, t) -> o <= vnodbas m /\ vnodnnd m <= o + zlen t \/ vnodnbr m = 0 }.

(** [x] and [y] have [k] neighbours in common *)
Definition common (m : mesh) (x y k : Z) : Prop :=
  exists l, NoDup l /\ zlen l = k /\ forall z, In z l <-> incident m x z /\ incident m y z.

(** a load array given by the user, placed at the first vertex it is about *)
Definition based (o : Z) (t : option (list Z)) : option (Z * list Z) := match t with None => None | Some l => Some (o, l) end.

(** what meshBuild computes: both load sums, isolated elements, largest degree *)
Definition built (m : mesh) : Prop :=
  mvelosum m = zsum (velmbas m) (velmnnd m) (mload (mvelo m)) /\ mvnlosum m = zsum (vnodbas m) (vnodnnd m) (mload (mvnlo m)) /\
  veisnbr m = zcount (velmbas m) (velmnnd m) (fun v => mdegree m v =? 0) /\ 0 <= mdegrmax m /\
  (forall v, elem m v \/ node m v -> mdegree m v <= mdegrmax m) /\ (mdegrmax m = 0 \/ exists v, (elem m v \/ node m v) /\ mdegree m v = mdegrmax m).

(** a load array moved by [adj] numbers *)
Definition moved (adj : Z) (t : option (Z * list Z)) : option (Z * list Z) := match t with None => None | Some (o, l) => Some (o + adj, l) end.

(** [m] with its load arrays moved *)
Definition move_loads (adj : Z) (m : mesh) : mesh :=
  mkmesh (mbase m) (velmnbr m) (velmbas m) (velmnnd m) (veisnbr m) (vnodnbr m) (vnodbas m) (vnodnnd m) (mvert m) (mvend m) (moved adj (mvelo m)) (moved adj (mvnlo m))
          (mvelosum m) (mvnlosum m) (mvnum m) (mvlbl m) (medgenbr m) (medge m) (mdegrmax m).

(** [m'] is [m] with all vertex and edge numbers shifted by [adj] *)
Record mesh_shifted (adj : Z) (m m' : mesh) : Prop := {
  ms_base : mbase m' = mbase m + adj;
  ms_velm : velmnbr m' = velmnbr m /\ velmbas m' = velmbas m + adj /\ velmnnd m' = velmnnd m + adj;
  ms_vnod : vnodnbr m' = vnodnbr m /\ vnodbas m' = vnodbas m + adj /\ vnodnnd m' = vnodnnd m + adj;
  ms_graph : graph_shifted adj (mgraph m) (mgraph m');
  ms_same : veisnbr m' = veisnbr m /\ mvelosum m' = mvelosum m /\ mvnlosum m' = mvnlosum m /\ mvlbl m' = mvlbl m /\ medgenbr m' = medgenbr m /\ mdegrmax m' = mdegrmax m /\ mvnum m' = moved adj (mvnum m) }.
