(** Properties C243, C244: ASCIIWriter. *)
From Coq Require Import Sorted.
From Verif Require Import Base ListFacts RegionSpec RegionStreaks CoordModel CoordSpec CoordFacts CoordProps FileModel FileFacts FileProps AsciiModel AsciiSpec.

Lemma lines_values {V} (r : list V) f l ls : lines f = l :: ls -> lines (map Value r ++ f) = (r ++ l) :: ls.
Proof. intros H. induction r as [|v r IH]; [exact H|]. cbn [map app lines]. now rewrite IH. Qed.

Lemma lines_blank {V} k (f : list (token V)) : lines (repeat Newline k ++ f) = repeat [] k ++ lines f.
Proof. induction k as [|k IH]; [reflexivity|]. cbn [repeat app lines]. now rewrite IH. Qed.

Lemma rows_streaks {V} (get : coord -> V) l : (forall s, In s l -> s_x s = 0 /\ 0 < s_e s) ->
  (exists ls, lines (flat_map (ascii_streak get) l) = [] :: ls) /\ rows (flat_map (ascii_streak get) l) = map (fun s => map get (streak_coords s)) l.
Proof.
  induction l as [|s l IH]; intros H; [split; [exists []; reflexivity|reflexivity]|]. destruct IH as [(ls & El) Er]; [intros; apply H; now right|]. destruct (H s (or_introl eq_refl)) as [Hx He].
  cbn [flat_map]. unfold rows in *. unfold ascii_streak at 1 3. rewrite Hx. cbn [Z.eqb].
  assert (exists k, length (filter (fun x => x =? 0) (s_origin s)) = S k) as (k & Ek).
  { unfold s_origin. rewrite filter_app, app_length, Hx. cbn [filter length]. change (0 =? 0) with true. cbn [length]. eexists. rewrite Nat.add_1_r. reflexivity. }
  rewrite Ek, <- app_assoc, lines_blank. rewrite <- (map_map get Value). rewrite (lines_values _ _ [] ls El), app_nil_r. split; [eexists; reflexivity|].
  rewrite filter_app. assert (Hb : forall n, filter (fun l : list V => match l with [] => false | _ => true end) (repeat [] n) = []) by (induction n; [reflexivity|assumption]). rewrite Hb. cbn [app map filter].
  rewrite El in Er. cbn [filter] in Er. assert (Hne : map get (streak_coords s) <> []).
  { intros E. apply map_eq_nil in E. unfold streak_coords in E. apply map_eq_nil in E. pose proof (zrange_length (s_x s) (s_e s)) as Hl. rewrite E in Hl. cbn in Hl. lia. }
  destruct (map get (streak_coords s)); [congruence|]. now rewrite Er.
Qed.

Lemma values_streaks {V} (get : coord -> V) l : values (flat_map (ascii_streak get) l) = flat_map (fun s => map get (streak_coords s)) l.
Proof.
  assert (Hv : forall r : list V, values (map Value r) = r) by (induction r as [|v r IH]; [reflexivity|]; cbn; f_equal; exact IH).
  assert (Hn : forall n, values (repeat (@Newline V) n) = []) by (induction n; [reflexivity|assumption]).
  induction l as [|s l IH]; [reflexivity|]. cbn [flat_map]. unfold values in *. rewrite flat_map_app, IH. f_equal. unfold ascii_streak. rewrite flat_map_app, <- (map_map get Value). rewrite Hv. destruct (s_x s =? 0); [now rewrite Hn|reflexivity].
Qed.

Lemma pos_rows_regular b d : length (b_dim b) = S d -> allpos (b_dim b) -> rows_regular b.
Proof.
  intros Hdl Hd. unfold rows_regular. unfold allpos in Hd. destruct (b_dim b) as [|m ms]; [discriminate|]. inversion Hd as [|? ? Hm Hms]; subst. destruct ms as [|m2 ms]; [exact I|].
  split; [lia|]. clear - Hms. revert Hms. generalize (m2 :: ms) as l. induction l as [|a [|b l] IH]; intros H; [constructor|constructor|].
  inversion H; subst. change (removelast (a :: b :: l)) with (a :: removelast (b :: l)). constructor; auto.
Qed.

Theorem C243_ascii {V} (b : box) d (get : coord -> V) all :
  length (b_origin b) = S d -> length (b_dim b) = S d -> allpos (b_dim b) -> StronglySorted coord_lt all -> (forall c, In c all <-> in_box b c) ->
  exists fuel0, forall fuel, (fuel0 <= fuel)%nat -> exists f, ascii_file fuel b get = Some f /\ values f = map get all /\
    (last (b_origin b) 0 = 0 -> concat (rows f) = map get all /\ Forall (fun r => Z.of_nat (length r) = last (b_dim b) 0) (rows f)).
Proof.
  intros Ho Hdl Hd Hs Hall. destruct (C100_serial_bov V V V (mkDType 1 1 (fun v => [v]) (fun l => hd (get []) l)) (fun a => [a]) b d get all Ho Hdl Hd Hs Hall) as (f1 & H1).
  destruct (C10_box_streak_iteration d b Ho Hdl (pos_rows_regular b d Hdl Hd)) as (l & Hl & _ & _ & Hx).
  assert (Hlast : 0 < last (b_dim b) 0). { unfold allpos in Hd. rewrite Forall_forall in Hd. apply Hd. rewrite (app_removelast_last 0 (l := b_dim b)) at 2 by (intros E0; rewrite E0 in Hdl; discriminate). apply in_or_app. right. now left. }
  exists (Nat.max f1 (Z.to_nat (prod (removelast (b_dim b))))). intros fuel Hf. specialize (H1 fuel ltac:(lia)). unfold serial_bov in H1. rewrite (Hl fuel ltac:(lia)) in H1. cbn [option_map] in H1. injection H1 as H1.
  exists (flat_map (ascii_streak get) l). split; [unfold ascii_file; rewrite (Hl fuel ltac:(lia)); reflexivity|].
  assert (Hv : flat_map (fun s => map get (streak_coords s)) l = map get all).
  { transitivity (flat_map (fun c => flat_map (fun v : V => [v]) [get c]) all).
    - etransitivity; [|exact H1]. cbn [dt_pack]. apply flat_map_ext. intros s. unfold bov_buffer. generalize (streak_coords s) as cs. clear. induction cs as [|c cs IH]; [reflexivity|]. cbn. f_equal; exact IH.
    - clear. induction all as [|c all IH]; [reflexivity|]. cbn. f_equal; exact IH. }
  split; [now rewrite values_streaks|]. intros H0. rewrite Forall_forall in Hx. destruct (rows_streaks get l) as [_ ->].
  { intros s Hi. destruct (Hx s Hi). lia. }
  split; [now rewrite <- flat_map_concat_map|]. apply Forall_forall. intros r Hr. apply in_map_iff in Hr. destruct Hr as (s & <- & Hi). destruct (Hx s Hi). rewrite map_length. unfold streak_coords. rewrite map_length, zrange_length. lia.
Qed.
Print Assumptions C243_ascii.

Definition ex_get (c : coord) : Z := match c with [y; x] => 10 * y + x | _ => 0 end.
Example C243_example : exists f, ascii_file 5 (mkBox [0; 0] [2; 3]) ex_get = Some f /\ values f = [0; 1; 2; 10; 11; 12] /\ rows f = [[0; 1; 2]; [10; 11; 12]] /\
  f = [Newline; Newline; Value 0; Value 1; Value 2; Newline; Value 10; Value 11; Value 12].
Proof. eexists. split; [vm_compute; reflexivity|]. vm_compute. auto. Qed.

(** ** C244 *)

(** Grids which don't start at X = 0: two of different shapes yield the same
    file. *)
Theorem C244_displaced_refuted : exists (b1 b2 : box) (g1 g2 : coord -> Z) f, b_dim b1 <> b_dim b2 /\ allpos (b_dim b1) /\ allpos (b_dim b2) /\
  ascii_file 9 b1 g1 = Some f /\ ascii_file 9 b2 g2 = Some f /\ length (rows f) = 1%nat.
Proof.
  exists (mkBox [0; 1] [2; 3]), (mkBox [0; 1] [3; 2]), (fun _ => 7), (fun _ => 7), (repeat (Value 7) 6). split; [discriminate|]. split; [repeat constructor; lia|]. split; [repeat constructor; lia|]. vm_compute. auto.
Qed.
Print Assumptions C244_displaced_refuted.
