(** Specification of bipartitions. *)
From Verif Require Import Base M_Graph M_Bgraph S_Graph.

Definition bp (g : bgraph) (v : Z) : Z := at_ (baseval (bs g)) (bpart g) v.
Definition bfr (g : bgraph) (i : Z) : Z := at_ 0 (bfron g) i.
(** External gain of a vertex *)
Definition veex (g : bgraph) (v : Z) : Z := match bveex g with Some t => at_ (baseval (bs g)) t v | None => 0 end.

(** Arrays are large enough, part values are bytes *)
Record bg_readable (g : bgraph) : Prop := {
  br_graph : graph_readable (bs g);
  br_part : vertnbr (bs g) <= zlen (bpart g);
  br_byte : forall v, isvert (bs g) v -> 0 <= bp g v <= 255;
  br_fron : vertnbr (bs g) <= zlen (bfron g);
  br_veex : forall t, bveex g = Some t -> vertnbr (bs g) <= zlen t }.

(** Number and load of the vertices of a part, summed external gains over a part *)
Definition bsize (g : bgraph) (p : Z) : Z := zcount (baseval (bs g)) (vertnnd (bs g)) (fun v => bp g v =? p).
Definition bload (g : bgraph) (p : Z) : Z := zsum (baseval (bs g)) (vertnnd (bs g)) (fun v => if bp g v =? p then velo (bs g) v else 0).
Definition bext (g : bgraph) (p : Z) : Z := zsum (baseval (bs g)) (vertnnd (bs g)) (fun v => if bp g v =? p then veex g v else 0).
(** Load of the cut: each edge between the two parts counts once, from its end in part 0 *)
Definition bcut (g : bgraph) : Z :=
  zsum (baseval (bs g)) (vertnnd (bs g)) (fun v =>
    zsum (vert (bs g) v) (vend (bs g) v) (fun e => if (bp g v =? 0) && (bp g (edge (bs g) e) =? 1) then edlo (bs g) e else 0)).
(** A vertex of the frontier has a neighbour in the other part *)
Definition onfront (g : bgraph) (v : Z) : Prop := exists e, arc (bs g) v e /\ bp g (edge (bs g) e) <> bp g v.

Record bg_valid (avg : Z -> Z -> Z -> Z) (g : bgraph) : Prop := {
  bv_part : forall v, isvert (bs g) v -> bp g v = 0 \/ bp g v = 1;
  bv_avg : bavg g = bgraphAvg avg (bs g) (bwg0 g) (bwg1 g) (bfx0 g) (bfx1 g);
  bv_dlt : bld0 g = bavg g + bdlt g;
  bv_size : bsz0 g = bsize g 0;
  bv_load : bld0 g = bload g 0;
  bv_comm : bcml g = bcut g * bdist g + (bcmle0 g + bext g 1);
  bv_gain : bcmge g = bext g 0 - bext g 1;
  bv_fron : 0 <= bfronnbr g /\
    (forall i, 0 <= i < bfronnbr g -> isvert (bs g) (bfr g i) /\ onfront g (bfr g i)) /\
    (forall i j, 0 <= i < bfronnbr g -> 0 <= j < bfronnbr g -> bfr g i = bfr g j -> i = j) /\
    (forall v, isvert (bs g) v -> onfront g v -> exists i, 0 <= i < bfronnbr g /\ bfr g i = v) }.
