(** Properties of the container SELL-C-SIGMA. *)
From Coq Require Import Permutation Sorted.
From Verif Require Import Base ListFacts RegionSpec RegionStreaks RegionOpsModel GridModel GridFacts SellModel SellSpec SellFacts.

(** ** C39 *)

(** After initialization, each row of the matrix is found at some position
    [pos x] within its sorting scope, the tables of the container translate
    between both, and reading this position yields precisely the entries of
    the row, by ascending column. *)
Theorem C39_sell_rows : forall V (zero : V) C S srt n m,
  1 <= C -> 1 <= S -> 1 <= n -> sorting srt -> rows_below n m ->
  exists s pos, sell_init zero C S srt (sell_make C n) m = Some s /\ sl_dim s = n /\
    (forall x, 0 <= x < n -> In (x, pos x) (sl_sorted s) /\ vec_get (sl_real s) (pos x) = Some x /\ pos x / S = x / S) /\
    (forall x y, 0 <= x < n -> 0 <= y < n -> pos x = pos y -> x = y) /\
    (forall x q, 0 <= x < n -> In (x, q) (sl_sorted s) -> q = pos x) /\
    forall x, 0 <= x < n -> exists l, sell_row C s (pos x) = Some l /\ is_row m x l.
Proof.
  intros V zero C S srt n m HC HS Hn Hsrt Hm. destruct (Hsrt m) as [Hp Hs].
  assert (Hm' : rows_below n (srt m)). { apply Forall_forall. intros e He. unfold rows_below in Hm. rewrite Forall_forall in Hm. apply Hm. now apply (Permutation_in _ (Permutation_sym Hp)). }
  destruct (sell_init_spec zero C S n (srt m) HC HS Hn Hm' Hs) as (s & perm & E & Hd & HK & (H1 & H2 & _) & Hin & Hreal & Hrow).
  exists s, (index_of perm). split; [exact E|]. split; [exact Hd|].
  set (K := Z.min _ _) in *. clearbody K.
  assert (Hnd : NoDup perm) by (apply (Permutation_NoDup (Permutation_sym H1)), zrange_nodup).
  assert (Hg : forall x, 0 <= x < n -> vec_get perm (index_of perm x) = Some x).
  { intros x Hx. apply index_of_get. apply (Permutation_in _ (Permutation_sym H1)). apply zrange_in. lia. }
  split; [|split; [|split]].
  - intros x Hx. specialize (Hg x Hx). split; [now apply Hin|]. split; [now apply Hreal|]. symmetry. now apply H2.
  - intros x y Hx Hy Ex. pose proof (Hg x Hx). pose proof (Hg y Hy). congruence.
  - intros x q Hx Hq. apply Hin in Hq. apply (vec_get_inj perm _ _ x Hnd); auto.
  - intros x Hx. exists (row_entries (srt m) x). split; [apply Hrow; auto|]. split; [now apply row_perm|now apply row_sorted].
Qed.
Print Assumptions C39_sell_rows.

(** If longer rows come first within each sorting scope (in particular if
    SIGMA is 1), rows keep their position: getRow yields the row itself. *)
Theorem C39_get_row : forall V (zero : V) C S srt n m,
  1 <= C -> 1 <= S -> 1 <= n -> sorting srt -> rows_below n m -> descending S n m ->
  exists s, sell_init zero C S srt (sell_make C n) m = Some s /\
    forall x, 0 <= x < n -> exists l, sell_row C s x = Some l /\ is_row m x l.
Proof.
  intros V zero C S srt n m HC HS Hn Hsrt Hm Hde. destruct (Hsrt m) as [Hp Hs].
  assert (Hm' : rows_below n (srt m)). { apply Forall_forall. intros e He. unfold rows_below in Hm. rewrite Forall_forall in Hm. apply Hm. now apply (Permutation_in _ (Permutation_sym Hp)). }
  destruct (sell_init_spec zero C S n (srt m) HC HS Hn Hm' Hs) as (s & perm & E & Hd & HK & (H1 & H2 & H3) & Hin & Hreal & Hrow).
  exists s. split; [exact E|]. set (K := Z.min _ _) in *. clearbody K.
  assert (Hc : forall x, cnt (srt m) x = row_length m x).
  { intros x. rewrite <- cnt_row_length. unfold row_length. f_equal. apply Permutation_length. apply Permutation_sym. now apply row_perm. }
  assert (Hz : forall x, n <= x -> row_length m x = 0).
  { intros x Hx. unfold row_length, row_entries. rewrite filter_none; [reflexivity|]. intros e He. unfold rows_below in Hm. rewrite Forall_forall in Hm.
    specialize (Hm e He). apply Z.eqb_neq. lia. }
  assert (Ep : perm = zrange 0 K).
  { apply H3. intros x y Hx Hy Exy. rewrite !Hc. destruct (Z_lt_le_dec y n) as [L|L]; [now apply Hde|]. rewrite (Hz y L). unfold row_length. lia. }
  intros x Hx. exists (row_entries (srt m) x). split; [|split; [now apply row_perm|now apply row_sorted]]. apply Hrow. rewrite Ep.
  replace (zrange 0 K) with (map (fun z => z) (zrange 0 K)) by apply map_id. apply vec_get_fun. lia.
Qed.
Print Assumptions C39_get_row.

Corollary C39_get_row_unsorted : forall V (zero : V) C srt n m,
  1 <= C -> 1 <= n -> sorting srt -> rows_below n m ->
  exists s, sell_init zero C 1 srt (sell_make C n) m = Some s /\
    forall x, 0 <= x < n -> exists l, sell_row C s x = Some l /\ is_row m x l.
Proof.
  intros. apply C39_get_row; auto; [lia|]. intros x y Hx Hy E. rewrite !Z.div_1_r in E. subst y. lia.
Qed.
Print Assumptions C39_get_row_unsorted.

(** A sorting function, for the examples. *)
Definition entry_sort {V} : list (entry V) -> list (entry V) :=
  stable_sort (fun a b => (e_row a <? e_row b) || ((e_row a =? e_row b) && (e_col a <? e_col b))).

Lemma entry_sort_sorting V : sorting (@entry_sort V).
Proof.
  intros m. split; [apply stable_sort_perm|]. apply stable_sort_sorted; unfold entry_le; intros; lia.
Qed.

(** 5 rows in chunks of 2, sorted in scopes of 4. *)
Example C39_example :
  let m := [((1, 3), 13); ((0, 0), 1); ((1, 1), 11); ((3, 4), 34); ((3, 0), 30); ((3, 2), 32); ((4, 4), 44)]%Z in
  rows_below 5 m /\
  exists s, sell_init 0 2 4 entry_sort (sell_make 2 5) m = Some s /\
    sl_sorted s = [(0, 2); (1, 1); (2, 3); (3, 0); (4, 4); (5, 5)] /\ sl_rowlen s = [3; 2; 1; 0; 1; 0] /\
    sl_chunkoff s = [0; 6; 8; 10] /\ sell_row 2 s 0 = Some [(0, 30); (2, 32); (4, 34)] /\ sell_row 2 s 1 = Some [(1, 11); (3, 13)].
Proof.
  split; [repeat constructor; cbn; lia|]. eexists. split; [vm_compute; reflexivity|]. repeat split; vm_compute; reflexivity.
Qed.

(** ** C73 *)

(** getRow addresses rows by their position after sorting: it doesn't yield
    the row of the given ID if SIGMA > 1. *)
Theorem C73_get_row_sigma_refuted : exists (m : list (entry Z)) s l,
  rows_below 2 m /\ sell_init 0 1 2 entry_sort (sell_make 1 2) m = Some s /\ sell_row 1 s 0 = Some l /\ ~ is_row m 0 l.
Proof.
  exists [((0, 0), 1); ((1, 0), 2); ((1, 1), 3)]. do 2 eexists. split; [repeat constructor; cbn; lia|]. split; [vm_compute; reflexivity|].
  split; [vm_compute; reflexivity|]. intros [H _]. apply Permutation_length in H. discriminate.
Qed.
Print Assumptions C73_get_row_sigma_refuted.

(** ** C74 *)

(** Initializing a container a second time is fine if SIGMA = 1 ... *)
Example C74_example :
  let m1 := [((0, 0), 1); ((1, 0), 2); ((1, 1), 3)]%Z in let m2 := [((0, 1), 4); ((0, 0), 5)]%Z in
  exists s s2, sell_init 0 1 1 entry_sort (sell_make 1 2) m1 = Some s /\ sell_init 0 1 1 entry_sort s m2 = Some s2 /\
    sell_row 1 s2 0 = Some [(0, 5); (1, 4)] /\ sell_row 1 s2 1 = Some [].
Proof. do 2 eexists. split; [vm_compute; reflexivity|]. split; [vm_compute; reflexivity|]. split; vm_compute; reflexivity. Qed.

(** ... but for SIGMA > 1 entries go to the positions of the previous matrix,
    as realRowToSorted is never cleared: no position holds row 0. *)
Theorem C74_reinit_refuted : exists (m1 m2 : list (entry Z)) s s2,
  rows_below 2 m1 /\ rows_below 2 m2 /\
  sell_init 0 2 2 entry_sort (sell_make 2 2) m1 = Some s /\ sell_init 0 2 2 entry_sort s m2 = Some s2 /\
  forall q l, 0 <= q < 2 -> sell_row 2 s2 q = Some l -> ~ is_row m2 0 l.
Proof.
  exists [((0, 0), 1); ((1, 0), 2); ((1, 1), 3)], [((0, 1), 4); ((0, 0), 5)]. do 2 eexists.
  split; [repeat constructor; cbn; lia|]. split; [repeat constructor; cbn; lia|]. split; [vm_compute; reflexivity|]. split; [vm_compute; reflexivity|].
  intros q l Hq E [Hp Hs]. assert (q = 0 \/ q = 1) as [-> | ->] by lia; vm_compute in E; injection E as <-.
  - apply (Permutation_in (0, 5)) in Hp; [|vm_compute; auto]. cbn in Hp. destruct Hp as [Hp|[Hp|[]]]; discriminate.
  - apply Permutation_length in Hp. discriminate.
Qed.
Print Assumptions C74_reinit_refuted.
