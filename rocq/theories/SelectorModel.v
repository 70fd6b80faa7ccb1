(** Access to single members of cells: Selectors, their filters, the functions
    of the grids which use them, and the memory layout of LibFlatArray's
    soa_grid. Definitions only.

    Sources: storage/selector.h, storage/defaultfilter.h,
    storage/defaultarrayfilter.h, storage/simplefilter.h,
    storage/simplearrayfilter.h, storage/memberfilter.h,
    storage/defaultfilterfactory.h, storage/gridbase.h, storage/grid.h,
    storage/displacedgrid.h, storage/soagrid.h, all below
    /repo/src/libgeodecomp, and macros.hpp, detail/macros.hpp,
    detail/offset.hpp, detail/soa_array_member_copy_helper.hpp from
    /repo/lib/libflatarray/include/libflatarray.

    Objects are sequences of bytes, of any type. A pointer is an index into the
    memory it belongs to. [None] is undefined behaviour (accesses outside of
    the memory) or an exception. Types are represented by their sizes, so the
    comparison of type IDs (gridbase.h:224, 252) is not modelled, neither are
    alignment, the filters for CUDA (see CudaFilterModel) and memory other than
    HOST. *)
From Verif Require Import Base RegionSpec RegionModel RegionIterModel RegionOpsModel CoordModel PatchModel GridModel SoAModel.

Section Bytes.
Context {B : Type}.
Notation bytes := (list B).

(** Copying [n] bytes: assignments of single elements as well as [std::copy]. *)
Definition copy (src : bytes) (sp n : Z) (dst : bytes) (dp : Z) : option bytes :=
  obind (vec_read src sp (Z.to_nat n)) (vec_write dst dp (Z.to_nat n)).

(** [for (i = 0; i < n; ++i) f(i)] *)
Definition loop {S} (n : Z) (f : Z -> S -> option S) : S -> option S := each f (zrange 0 n).

(** ** Filters *)

(** The filters for HOST memory. [MEMBER] and [EXTERNAL] are represented by
    their sizes.
    - [FDefault size]: DefaultFilter<CELL, MEMBER, MEMBER>
    - [FArray size arity]: DefaultArrayFilter<CELL, MEMBER, MEMBER, ARITY>
    - [FSimple ms es load save]: a class derived from SimpleFilter; [load] gets
      the external value and the former value of the member.
    - [FSimpleArray ms es arity load save]: ditto, SimpleArrayFilter; [load]
      and [save] handle the whole array.
    - [FMember size dflt pos f]: MemberFilter<CELL, MEMBER>; [dflt] is MEMBER(),
      the inner selector has the member pointer [pos] and the filter [f]. *)
Inductive filter :=
| FDefault (size : Z)
| FArray (size arity : Z)
| FSimple (ms es : Z) (load : bytes -> bytes -> bytes) (save : bytes -> bytes)
| FSimpleArray (ms es arity : Z) (load : bytes -> bytes -> bytes) (save : bytes -> bytes)
| FMember (size : Z) (dflt : bytes) (pos : Z) (f : filter).

(** [sizeOf] (filter.h:209-212, arrayfilter.h:16-19, memberfilter.h:96-99) *)
Fixpoint ext_size (f : filter) : Z :=
  match f with
  | FDefault size => size
  | FArray size arity => arity * size
  | FSimple _ es _ _ => es
  | FSimpleArray _ es arity _ _ => arity * es
  | FMember _ _ _ f' => ext_size f'
  end.

(** [target = load(source)] at the given places. *)
Definition load_at (load : bytes -> bytes -> bytes) (src : bytes) (sp es : Z) (dst : bytes) (dp ms : Z) : option bytes :=
  obind (vec_read src sp (Z.to_nat es)) (fun e =>
  obind (vec_read dst dp (Z.to_nat ms)) (fun m => vec_write dst dp (Z.to_nat ms) (load e m))).
Definition save_at (save : bytes -> bytes) (src : bytes) (sp ms : Z) (dst : bytes) (dp es : Z) : option bytes :=
  obind (vec_read src sp (Z.to_nat ms)) (fun m => vec_write dst dp (Z.to_nat es) (save m)).

(** [copyMemberIn] (defaultfilter.h:44-57, defaultarrayfilter.h:50-66,
    simplefilter.h:51-62, simplearrayfilter.h:55-66, memberfilter.h:166-213):
    from the external representation at [sp] to the members of the [num] cells
    at [tp]. [csize] is sizeof(CELL), [mp] the member pointer. *)
Fixpoint member_in (f : filter) (csize : Z) (src : bytes) (sp : Z) (tgt : bytes) (tp num mp : Z) : option bytes :=
  match f with
  | FDefault size => loop num (fun i m => copy src (sp + i * size) size m (tp + i * csize + mp)) tgt
  | FArray size arity => loop num (fun i m => copy src (sp + i * arity * size) (arity * size) m (tp + i * csize + mp)) tgt
  | FSimple ms es load _ => loop num (fun i m => load_at load src (sp + i * es) es m (tp + i * csize + mp) ms) tgt
  | FSimpleArray ms es arity load _ =>
      loop num (fun i m => load_at load src (sp + i * arity * es) (arity * es) m (tp + i * csize + mp) (arity * ms)) tgt
  | FMember size dflt pos f' =>
      obind (member_in f' size src sp (concat (repeat dflt (Z.to_nat num))) 0 num pos) (fun buf =>
      loop num (fun i m => copy buf (i * size) size m (tp + i * csize + mp)) tgt)
  end.

(** [copyMemberOut] (defaultfilter.h:59-72, defaultarrayfilter.h:69-86,
    simplefilter.h:64-75, simplearrayfilter.h:68-79, memberfilter.h:218-265) *)
Fixpoint member_out (f : filter) (csize : Z) (src : bytes) (sp : Z) (tgt : bytes) (tp num mp : Z) : option bytes :=
  match f with
  | FDefault size => loop num (fun i m => copy src (sp + i * csize + mp) size m (tp + i * size)) tgt
  | FArray size arity => loop num (fun i m => copy src (sp + i * csize + mp) (arity * size) m (tp + i * arity * size)) tgt
  | FSimple ms es _ save => loop num (fun i m => save_at save src (sp + i * csize + mp) ms m (tp + i * es) es) tgt
  | FSimpleArray ms es arity _ save =>
      loop num (fun i m => save_at save src (sp + i * csize + mp) (arity * ms) m (tp + i * arity * es) (arity * es)) tgt
  | FMember size dflt pos f' =>
      obind (loop num (fun i m => copy src (sp + i * csize + mp) size m (i * size)) (concat (repeat dflt (Z.to_nat num)))) (fun buf =>
      member_out f' size buf 0 tgt tp num pos)
  end.

(** What the [MEMBER buffer[ARITY]] in [SimpleArrayFilter::copyStreakIn] holds
    before [load] (simplearrayfilter.h:28). *)
Context (junk : bytes).

(** [copyStreakIn] (defaultfilter.h:16-28, defaultarrayfilter.h:16-31,
    simplefilter.h:25-36, simplearrayfilter.h:19-35, memberfilter.h:128-142):
    the components of array members are [stride] elements apart. *)
Definition streak_in (f : filter) (src : bytes) (sp : Z) (tgt : bytes) (tp num stride : Z) : option bytes :=
  match f with
  | FDefault size => copy src sp (num * size) tgt tp
  | FArray size arity =>
      loop num (fun i => loop arity (fun j m => copy src (sp + (i * arity + j) * size) size m (tp + (j * stride + i) * size))) tgt
  | FSimple ms es load _ => loop num (fun i m => load_at load src (sp + i * es) es m (tp + i * ms) ms) tgt
  | FSimpleArray ms es arity load _ =>
      loop num (fun i m =>
        obind (load_at load src (sp + i * arity * es) (arity * es) junk 0 (arity * ms)) (fun buf =>
        loop arity (fun j m => copy buf (j * ms) ms m (tp + (i + j * stride) * ms)) m)) tgt
  | FMember size _ pos f' => member_in f' size src sp tgt tp num pos
  end.

(** [copyStreakOut] (defaultfilter.h:30-42, defaultarrayfilter.h:33-48,
    simplefilter.h:38-49, simplearrayfilter.h:37-53, memberfilter.h:147-161) *)
Definition streak_out (f : filter) (src : bytes) (sp : Z) (tgt : bytes) (tp num stride : Z) : option bytes :=
  match f with
  | FDefault size => copy src sp (num * size) tgt tp
  | FArray size arity =>
      loop num (fun i => loop arity (fun j m => copy src (sp + (j * stride + i) * size) size m (tp + (i * arity + j) * size))) tgt
  | FSimple ms es _ save => loop num (fun i m => save_at save src (sp + i * ms) ms m (tp + i * es) es) tgt
  | FSimpleArray ms es arity _ save =>
      loop num (fun i m =>
        obind (loop arity (fun j b => copy src (sp + (i + j * stride) * ms) ms b (j * ms)) junk) (fun buf =>
        save_at save buf 0 (arity * ms) m (tp + i * arity * es) (arity * es))) tgt
  | FMember size _ pos f' => member_out f' size src sp tgt tp num pos
  end.

(** ** The layout of soa_grid *)

(** A member of a cell: the member pointer, i.e. the position within the
    object, the size of an element and the number of elements; 1 unless it is
    an array. *)
Record memb := mkMemb { m_pos : Z; m_size : Z; m_arity : Z }.
Definition memb_eqb (a b : memb) : bool := (m_pos a =? m_pos b) && (m_size a =? m_size b) && (m_arity a =? m_arity b).

(** [offset<CELL, k>::OFFSET] (detail/macros.hpp:51-57) for the members
    registered via LIBFLATARRAY_REGISTER_SOA; [aggregated_member_size]
    (macros.hpp:117-127) *)
Fixpoint member_off (reg : list memb) (k : nat) : Z :=
  match k, reg with S k', m :: reg' => m_size m * m_arity m + member_off reg' k' | _, _ => 0 end.
Definition cell_bytes (reg : list memb) : Z := member_off reg (length reg).

(** [member_ptr_to_offset] (member_ptr_to_offset.hpp:26-32, detail/macros.hpp:59-87,
    detail/offset.hpp:45-49): starts with the last member, throws if the member
    is not registered. *)
Fixpoint ptr_offset (reg : list memb) (m : memb) (k : nat) : option Z :=
  match k with
  | O => None
  | S k' =>
      match nth_error reg k' with
      | Some m' => if memb_eqb m m' then Some (member_off reg k') else ptr_offset reg m k'
      | None => None
      end
  end.

(** The address of component [j] of a member of the cell with index [i]
    (detail/macros.hpp:90-108) in a grid of [n] cells (DIM_PROD) *)
Definition soa_addr (n off size j i : Z) : Z := n * (size * j + off) + i * size.

(** [accessor << cell] (macros.hpp:221-237, detail/macros.hpp:140-160,
    soa_array_member_copy_helper.hpp:199-232) and [accessor >> cell]
    (macros.hpp:239-247, detail/macros.hpp:162-183,
    soa_array_member_copy_helper.hpp:234-265) *)
Definition accessor_put (n : Z) (reg : list memb) (i : Z) (cell : bytes) : bytes -> option bytes :=
  each (fun km => loop (m_arity (snd km)) (fun j mem =>
    copy cell (m_pos (snd km) + j * m_size (snd km)) (m_size (snd km)) mem (soa_addr n (member_off reg (fst km)) (m_size (snd km)) j i)))
    (combine (seq 0 (length reg)) reg).

Definition accessor_get (n : Z) (reg : list memb) (i : Z) (mem : bytes) : bytes -> option bytes :=
  each (fun km => loop (m_arity (snd km)) (fun j cell =>
    copy mem (soa_addr n (member_off reg (fst km)) (m_size (snd km)) j i) (m_size (snd km)) cell (m_pos (snd km) + j * m_size (snd km))))
    (combine (seq 0 (length reg)) reg).

(** ** Selector *)

(** Members (selector.h:499-505) *)
Record selector := mkSel { sl_pos : Z; sl_size : Z; sl_ext : Z; sl_off : Z; sl_filter : filter }.

(** The constructors. [reg]: the members registered with LibFlatArray, [None]
    if the cell doesn't support Struct of Arrays (selector.h:37-69). *)
Definition sel_offset (reg : option (list memb)) (m : memb) : option Z :=
  match reg with Some r => ptr_offset r m (length r) | None => Some (-1) end.

(** selector.h:205-223: a member of size [size] *)
Definition sel_member reg pos size : option selector :=
  option_map (fun o => mkSel pos size size o (FDefault size)) (sel_offset reg (mkMemb pos size 1)).

(** selector.h:225-243: an array *)
Definition sel_array reg pos size arity : option selector :=
  option_map (fun o => mkSel pos size (size * arity) o (FArray size arity)) (sel_offset reg (mkMemb pos size arity)).

(** selector.h:245-273: with a filter *)
Definition sel_filter reg (m : memb) f : option selector :=
  option_map (fun o => mkSel (m_pos m) (m_size m) (ext_size f) o f) (sel_offset reg m).

(** selector.h:275-294, 296-315: a member of a member, or an array therein
    (memberfilter.h:44-66); [dflt] is MEMBER(). *)
Definition sel_nested reg pos size dflt pos2 size2 : option selector :=
  option_map (fun o => mkSel pos size size2 o (FMember size dflt pos2 (FDefault size2))) (sel_offset reg (mkMemb pos size 1)).
Definition sel_nested_array reg pos size dflt pos2 size2 arity : option selector :=
  option_map (fun o => mkSel pos size (size2 * arity) o (FMember size dflt pos2 (FArray size2 arity))) (sel_offset reg (mkMemb pos size 1)).

(** selector.h:317-341: a member of a member of a member (memberfilter.h:68-80);
    the variant for arrays (selector.h:343-366) is analogous. *)
Definition sel_nested2 reg pos size dflt pos2 size2 dflt2 pos3 size3 : option selector :=
  option_map (fun o => mkSel pos size size3 o (FMember size dflt pos2 (FMember size2 dflt2 pos3 (FDefault size3))))
    (sel_offset reg (mkMemb pos size 1)).

(** ** Grids *)

(** The address of [this->operator[](coord)] (grid.h:146-154): the address of a cell in the vector.
    The address of the edge cell is not modelled. *)
Definition cell_ptr (t : topology) (csize : Z) (g : vgrid bytes) (c : coord) : option Z :=
  if out_of_bounds t c (g_dim g) then None else Some (csize * to_index (normalize_edges c (g_dim g)) (g_dim g)).

(** The bytes of a vector of cells, and the cells in there. *)
Fixpoint cut (csize : Z) (n : nat) (mem : bytes) : list bytes :=
  match n with O => [] | S n' => firstn (Z.to_nat csize) mem :: cut csize n' (skipn (Z.to_nat csize) mem) end.

(** [saveMemberImplementationGeneric], [loadMemberImplementationGeneric]
    (grid.h:438-455, 472-489): [tp], [sp] are the pointers which advance. *)
Fixpoint aos_save (t : topology) (csize : Z) (sel : selector) (g : vgrid bytes) (ss : list streak) (tgt : bytes) (tp : Z) : option bytes :=
  match ss with
  | [] => Some tgt
  | s :: ss' =>
      obind (cell_ptr t csize g (s_origin s)) (fun p =>
      obind (member_out (sl_filter sel) csize (concat (g_cells g)) p tgt tp (s_e s - s_x s) (sl_pos sel)) (fun tgt' =>
      aos_save t csize sel g ss' tgt' (tp + sl_ext sel * (s_e s - s_x s))))
  end.

Fixpoint aos_load (t : topology) (csize : Z) (sel : selector) (src : bytes) (ss : list streak) (sp : Z) (g : vgrid bytes) : option (vgrid bytes) :=
  match ss with
  | [] => Some g
  | s :: ss' =>
      obind (cell_ptr t csize g (s_origin s)) (fun p =>
      obind (member_in (sl_filter sel) csize src sp (concat (g_cells g)) p (s_e s - s_x s) (sl_pos sel)) (fun mem =>
      aos_load t csize sel src ss' (sp + sl_ext sel * (s_e s - s_x s)) (mkVGrid (g_dim g) (cut csize (length (g_cells g)) mem) (g_edge g))))
  end.

(** [GridBase::saveMember], [saveMemberUnchecked], [loadMember]
    (gridbase.h:217-261) for Grid (grid.h:422-435, 457-470) *)
Definition grid_save_member t csize sel (g : vgrid bytes) (r : indices) (tgt : bytes) : option bytes :=
  obind (reg_streaks r) (fun ss => aos_save t csize sel g ss tgt 0).
Definition grid_load_member t csize sel (g : vgrid bytes) (r : indices) (src : bytes) : option (vgrid bytes) :=
  obind (reg_streaks r) (fun ss => aos_load t csize sel src ss 0 g).

(** NormalizingIterator with an origin (displacedgrid.h:42-53): offset and
    Streak of the parent are moved, then normalized. *)
Definition norm_streaks_org (t : topology) (correct : bool) (topo : coord) (r : indices) (org : coord) : option (list streak) :=
  match it_begin r (zero_off r) 0 with
  | Some b =>
      let s := it_streak b in
      let b' := mkIter (it_pos b) (mkStreak (zsub (s_pre s) org) (s_x s - last org 0) (s_e s - last org 0)) in
      nit_run t correct topo (length (last r [])) r (zsub (zero_off r) org) (norm_iter t correct topo b') (it_end r)
  | None => None
  end.

(** DisplacedGrid (displacedgrid.h:355-424) *)
Definition dg_save_member t correct csize sel (d : dgrid bytes) (r : indices) (tgt : bytes) : option bytes :=
  obind (norm_streaks_org t correct (d_topo d) r (d_org d)) (fun ss => aos_save t csize sel (d_grid d) ss tgt 0).
Definition dg_load_member t correct csize sel (d : dgrid bytes) (r : indices) (src : bytes) : option (dgrid bytes) :=
  obind (norm_streaks_org t correct (d_topo d) r (d_org d)) (fun ss => option_map (dg_with d) (aos_load t csize sel src ss 0 (d_grid d))).

(** [GenIndex] (soagrid.h:123-150) *)
Definition soa_gen_index (ext rad rel : coord) : Z := gen_index ext (zadd (pad 0 rel) rad).

(** [SaveMember], [LoadMember] (soagrid.h:152-207, 209-266) with
    [access_member] (macros.hpp:340-349). [n] is DIM_X * DIM_Y * DIM_Z. *)
Definition soa_ptr (ext : coord) (sel : selector) (g : sgrid bytes) (s : streak) : Z :=
  prod ext * sl_off sel + soa_gen_index ext (sg_rad g) (zsub (s_origin s) (b_origin (sg_box g))) * sl_size sel.

Fixpoint soa_save (ext : coord) (sel : selector) (g : sgrid bytes) (mem : bytes) (ss : list streak) (tgt : bytes) (tp : Z) : option bytes :=
  match ss with
  | [] => Some tgt
  | s :: ss' =>
      obind (streak_out (sl_filter sel) mem (soa_ptr ext sel g s) tgt tp (s_e s - s_x s) (prod ext)) (fun tgt' =>
      soa_save ext sel g mem ss' tgt' (tp + sl_ext sel * (s_e s - s_x s)))
  end.

Fixpoint soa_load (ext : coord) (sel : selector) (g : sgrid bytes) (src : bytes) (ss : list streak) (sp : Z) (mem : bytes) : option bytes :=
  match ss with
  | [] => Some mem
  | s :: ss' =>
      obind (streak_in (sl_filter sel) src sp mem (soa_ptr ext sel g s) (s_e s - s_x s) (prod ext)) (fun mem' =>
      soa_load ext sel g src ss' (sp + sl_ext sel * (s_e s - s_x s)) mem')
  end.

(** SoAGrid (soagrid.h:587-625, 647-675): [mem] is the memory of the delegate,
    everything else is the same as in [SoAModel]. *)
Definition sg_save_member (sizes : coord -> option coord) sel (g : sgrid bytes) (mem : bytes) (r : indices) (tgt : bytes) : option bytes :=
  obind (reg_streaks r) (fun ss => obind (sizes (sg_act g)) (fun ext => soa_save ext sel g mem ss tgt 0)).
Definition sg_load_member (sizes : coord -> option coord) sel (g : sgrid bytes) (mem : bytes) (r : indices) (src : bytes) : option bytes :=
  obind (reg_streaks r) (fun ss => obind (sizes (sg_act g)) (fun ext => soa_load ext sel g src ss 0 mem)).
End Bytes.
Arguments filter : clear implicits. Arguments selector : clear implicits.
