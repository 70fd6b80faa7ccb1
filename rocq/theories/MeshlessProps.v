(** C102, C103, C104, C105: MeshlessAdapter. *)
From Coq Require Import QArith Qround.
From Coq.Floats Require Import SpecFloat.
From Verif Require Import Base RegionOpsModel CoordModel CoordSpec GridModel GridSpec GridFacts ArrayModel ParamModel MeshlessModel MeshlessSpec MeshlessFacts.
From Coq Require Import Lia Lqa.
Open Scope Q_scope.

(** ** C102: search finds exactly the vertices which are closer than the box size *)

Theorem C102_search t dims b a vs p : dims <> [] -> 0 < b -> length t = length dims -> Forall (fun v => in_space dims (fst v)) vs -> in_space dims p ->
  reset_box exact dims b = Some (Done a) ->
  exists g found ids, mesh_inserts exact t a (mesh_grid a) vs = Some g /\ mesh_search exact t a g p = Some (found, ids) /\
    (forall id, In id ids <-> exists q, In (q, id) vs /\ closer t dims b p q) /\
    (found = true <-> exists v, In v vs /\ closer t dims b p (fst v)).
Proof.
  intros Hne Hb Hl Hvs Hp Hr. apply reset_done in Hr as ->.
  destruct (mesh_inserts_rep t dims b Hb Hl vs [] _ Hvs (mesh_grid_rep dims b)) as (g & Eg & Hg). cbn [app] in Hg.
  destruct (mesh_search_spec t dims b vs g p Hne Hb Hl Hvs Hp Hg) as (found & ids & Es & Hids & Hf). exists g, found, ids. split; [exact Eg|]. split; [exact Es|].
  assert (H : forall id, In id ids <-> exists q, In (q, id) vs /\ closer t dims b p q).
  { intros id. rewrite Hids. rewrite Forall_forall in Hvs. split; intros (q & Hq & Hd); exists q; (split; [exact Hq|]); specialize (Hvs _ Hq); cbn [fst] in Hvs.
    - apply (distance2_closer t dims b p q Hl Hp Hvs). now apply exact_lt.
    - apply exact_lt. now apply (distance2_closer t dims b p q Hl Hp Hvs). }
  split; [exact H|]. rewrite Hf. split.
  - intros Hn. destruct ids as [|id ids]; [congruence|]. destruct (proj1 (H id) (or_introl eq_refl)) as (q & Hq & Hc). exists (q, id). auto.
  - intros ([q id] & Hq & Hc) E. assert (Hi : In id ids) by (apply H; eauto). rewrite E in Hi. destruct Hi.
Qed.
Print Assumptions C102_search.

(** A torus of 10 x 4 with boxes of size 1: the vertex at (9 + 3/4, 1) is found
    from (1/4, 1), the one at (2, 1) isn't. Dimensions are listed last
    dimension first. *)
Definition ex_dims : list Q := [4; 10].
Definition ex_vs : list (list Q * Z) := [([1; (39#4)], 7%Z); ([1; 2], 8%Z); ([(3#2); 0], 9%Z)].

Example C102_example : exists a g, reset_box exact ex_dims 1 = Some (Done a) /\ mesh_inserts exact [true; true] a (mesh_grid a) ex_vs = Some g /\
  mesh_search exact [true; true] a g [1; (1#4)] = Some (true, [7%Z; 9%Z]) /\ Forall (fun v => in_space ex_dims (fst v)) ex_vs /\ in_space ex_dims [1; (1#4)] /\
  mesh_search exact [true; true] a g [3; 5] = Some (false, []).
Proof.
  eexists. eexists. split; [vm_compute; reflexivity|]. split; [vm_compute; reflexivity|]. split; [vm_compute; reflexivity|].
  split; [|split; [|vm_compute; reflexivity]]; repeat constructor; cbn; lra.
Qed.

(** ** C103: doubles *)

Definition sfq (f : spec_float) : Q :=
  match f with S754_finite s m e => (if s then -1 else 1) * inject_Z (Zpos m) * (if Z.leb 0 e then inject_Z (2 ^ e) else 1 / inject_Z (2 ^ (- e))) | _ => 0 end.

Definition f01 : spec_float := S754_finite false 7205759403792794 (-56).
Definition f07 : spec_float := S754_finite false 7205759403792793 (-53).
Definition f08 : spec_float := S754_finite false 8106479329266892 (-53).

(** With a box size of 0.1, 0.7999999999999999 belongs to cell 7, while
    0.8999999999999999 belongs to cell 9: as 1 / boxSize is rounded, vertices
    closer than the box size may be two cells apart. They aren't found. *)
Theorem C103_doubles_refuted : exists (b : spec_float) dims p q a g,
  reset_box ieee dims b = Some (Done a) /\ in_space (map sfq dims) (map sfq p) /\ in_space (map sfq dims) (map sfq q) /\
  closer [false; false] (map sfq dims) (sfq b) (map sfq p) (map sfq q) /\
  SFltb (distance2 ieee [false; false] dims p q) (ma_radius2 a) = true /\
  mesh_inserts ieee [false; false] a (mesh_grid a) [(q, 5%Z)] = Some g /\ mesh_search ieee [false; false] a g p = Some (false, []).
Proof.
  exists f01, [a_ofZ ieee 1; a_ofZ ieee 1], [a_ofZ ieee 0; f07], [a_ofZ ieee 0; f08]. eexists. eexists.
  split; [vm_compute; reflexivity|]. split; [vm_compute; repeat split; discriminate|]. split; [vm_compute; repeat split; discriminate|].
  split; [exists [0%Z; 0%Z]; split; [repeat constructor; now right|vm_compute; reflexivity]|].
  split; [vm_compute; reflexivity|]. split; [vm_compute; reflexivity|]. vm_compute; reflexivity.
Qed.
Print Assumptions C103_doubles_refuted.

(** ** C104: findOptimumBoxSize *)

Theorem C104_optimum_box_size t dims b0 a0 ps graph : dims <> [] -> Forall (fun d => 0 < d) dims -> length t = length dims -> 0 < b0 ->
  Forall (fun v => in_space dims (fst v)) ps -> graph_ok ps graph -> reset_box exact dims b0 = Some (Done a0) ->
  exists fuel0 r, (forall fuel, (fuel0 <= fuel)%nat -> find_optimum exact t fuel a0 ps graph = Some r) /\
    let all_adjacent a := forall v w, edge_of ps graph v w ->
      exists c d, pos_to_coord exact a (fst v) = Some c /\ pos_to_coord exact a (fst w) = Some d /\ adjacent t (ma_disc a) c d in
    match r with
    | Found b a => 0 < b /\ reset_box exact dims b = Some (Done a) /\ all_adjacent a
    | Failed a => (MAX_SIZE < prod (ma_disc a))%Z \/ ~ all_adjacent a
    end.
Proof.
  intros Hne Hd Hl Hb Hps Hg Hr. pose proof (reset_done _ _ _ Hr) as ->. exact (find_spec t dims ps graph Hne Hl Hd Hps Hg b0 Hb Hr).
Qed.
Print Assumptions C104_optimum_box_size.

(** Four vertices of a path on 12 x 6: starting at 1, the box size becomes 3. *)
Definition ex_ps : list (list Q * Z) := [([1; 1], 0%Z); ([1; 3], 1%Z); ([4; 6], 2%Z); ([5; 11], 3%Z)].
Definition ex_graph : list (list Z) := [[1%Z]; [0%Z; 2%Z]; [1%Z; 3%Z]; [2%Z]].

Example C104_example : exists a0 b a, reset_box exact [6; 12] 1 = Some (Done a0) /\ find_optimum exact [false; false] 20 a0 ex_ps ex_graph = Some (Found b a) /\
  graph_ok ex_ps ex_graph /\ Forall (fun v => in_space [6; 12] (fst v)) ex_ps /\ edge_of ex_ps ex_graph ([4; 6], 2%Z) ([5; 11], 3%Z).
Proof.
  eexists. eexists. eexists. split; [vm_compute; reflexivity|]. split; [vm_compute; reflexivity|].
  split; [split; [cbn; lia|repeat constructor; cbn; lia]|]. split; [repeat constructor; cbn; lra|].
  exists 2%nat, [1%Z; 3%Z], 3%Z. repeat split; try lia; cbn; auto.
Qed.

(** ** C105: graphs which don't need any cells *)

(** If neighbors in the graph always are in adjacent cells, the box size is
    halved until there are too many of them: findOptimumBoxSize throws. Here
    there's one vertex without neighbors. *)
Theorem C105_no_edges_refuted : exists dims b0 a0 ps graph fuel a, reset_box exact dims b0 = Some (Done a0) /\ dims <> [] /\ Forall (fun d => 0 < d) dims /\ 0 < b0 /\
  Forall (fun v => in_space dims (fst v)) ps /\ graph_ok ps graph /\ (forall v w, ~ edge_of ps graph v w) /\
  find_optimum exact [false; false] fuel a0 ps graph = Some (Failed a).
Proof.
  exists [4; 10], 1. eexists. exists [([1; 1], 0%Z)], [[]], 30%nat. eexists. split; [vm_compute; reflexivity|]. split; [discriminate|].
  split; [repeat constructor|]. split; [reflexivity|]. split; [repeat constructor; cbn; lra|]. split; [split; [cbn; lia|repeat constructor]|]. split.
  - intros v w ([|[|i]] & ns & n & E & Hn & _); cbn in E; try discriminate. injection E as <-. destruct Hn.
  - vm_compute. reflexivity.
Qed.
Print Assumptions C105_no_edges_refuted.

(** ** C106: valid box sizes may be missed *)

(** A space of length 3.9 with vertices at 1.1 and 2.95: a box size of 1 is
    valid, as the third cell extends to the far boundary. In the end only
    3.9 / 4 and 3.9 / 3 are tried, which aren't. *)
Theorem C106_missed_refuted : exists dims b0 a0 ps graph fuel a, reset_box exact dims b0 = Some (Done a0) /\ dims <> [] /\ Forall (fun d => 0 < d) dims /\ 0 < b0 /\
  Forall (fun v => in_space dims (fst v)) ps /\ graph_ok ps graph /\
  (forall v w, edge_of ps graph v w -> exists c d, pos_to_coord exact a0 (fst v) = Some c /\ pos_to_coord exact a0 (fst w) = Some d /\ adjacent [false; false] (ma_disc a0) c d) /\
  find_optimum exact [false; false] fuel a0 ps graph = Some (Failed a) /\ (prod (ma_disc a) <= MAX_SIZE)%Z.
Proof.
  exists [1; (39#10)], 1. eexists. exists [([0; (11#10)], 0%Z); ([0; (59#20)], 1%Z)], [[1%Z]], 10%nat. eexists. split; [vm_compute; reflexivity|]. split; [discriminate|].
  split; [repeat constructor|]. split; [reflexivity|]. split; [repeat constructor; cbn; lra|]. split; [split; [cbn; lia|repeat constructor; cbn; lia]|].
  split; [|split; [vm_compute; reflexivity|vm_compute; discriminate]].
  intros v w ([|[|i]] & ns & n & E & Hn & Ev & Hn0 & Ew); cbn in E; try discriminate. injection E as <-. destruct Hn as [<-|[]]. injection Ev as <-. injection Ew as <-.
  eexists. eexists. split; [vm_compute; reflexivity|]. split; [vm_compute; reflexivity|]. exists [0; 1]%Z. split; [reflexivity|]. split; [repeat constructor; lia|vm_compute; reflexivity].
Qed.
Print Assumptions C106_missed_refuted.
