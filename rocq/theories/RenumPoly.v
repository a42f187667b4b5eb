(** * RenumPoly: polygonize for a footprint inside a longer list of vertices *)

From Coq Require Import ZArith List Lia Bool.
From Verif Require Import Py PyFacts Arith Euclid PySort Heapq GraphSpec Graph PolySpec Lav Cluster Poly PolyProofs PolyFaces TurnSpec SymLav RenumSpec RenumLav RenumProofs.
Set Implicit Arguments.
Unset Strict Implicit.
Local Open Scope Z_scope.

Lemma mapM_in X Y Y' (g : X -> res Y) (g' : X -> res Y') (h : Y -> Y') l : (forall x, In x l -> g' x = res_map h (g x)) -> mapM g' l = res_map (map h) (mapM g l).
Proof.
  induction l as [|x l IH]; intros H; cbn [mapM]; auto. rewrite H, IH; [|intros; apply H; simpl; auto|simpl; auto]. destruct (g x); cbn [res_map bind]; auto. destruct (mapM g l); cbn [res_map bind]; auto.
Qed.

Lemma get_pos X (l : list X) i : 0 <= i -> py_get l i = of_option IndexError (nth_error l (Z.to_nat i)).
Proof.
  intros H. unfold py_get. cbv zeta. replace (i <? 0) with false by lia. destruct (_ && _)%bool eqn:E; auto.
  assert (N : nth_error l (Z.to_nat i) = None) by (apply nth_error_None; lia). rewrite N. auto.
Qed.

Lemma get_neg X (l : list X) i : i < 0 -> 0 <= i + Z.of_nat (length l) -> py_get l i = py_get l (i + Z.of_nat (length l)).
Proof. intros H B. unfold py_get. cbv zeta. replace (i <? 0) with true by lia. replace (i + Z.of_nat (length l) <? 0) with false by lia. auto. Qed.

Lemma get_low X (l : list X) i : i + Z.of_nat (length l) < 0 -> py_get l i = Err IndexError.
Proof. intros H. unfold py_get. cbv zeta. replace (i <? 0) with true by lia. replace (0 <=? _) with false by lia. auto. Qed.

(** the same vertex under its old and its new number, counting from either end *)
Definition renum (n p q m i : Z) : Z :=
  if i <? - (n + m) then i - p - q else if i <? - m then i - q else if i <? 0 then i else if i <? n then i + p else i + p + q.
Definition unrenum (n p q m i : Z) : Z :=
  if i <? - (n + m) - q then i + p + q else if i <? - m then i + q else if i <? 0 then i else if i <? n + p then i - p else i - p - q.

Ltac zb := repeat match goal with |- context [Z.ltb ?a ?b] => destruct (Z.ltb_spec a b); try lia end.

Section Poly.
Context {A : arith}.
Variables pre verts post nodes : list (vec3 A).
Notation n := (Z.of_nat (length verts)).
Notation p := (Z.of_nat (length pre)).
Notation q := (Z.of_nat (length post)).
Notation m := (Z.of_nat (length nodes)).
Notation V := (verts ++ nodes).
Notation V' := ((pre ++ verts ++ post) ++ nodes).
Notation r := (renum n p q m).

Lemma unrenum_r i : unrenum n p q m (r i) = i.
Proof.
  unfold renum, unrenum. destruct (Z.ltb_spec i (- (n + m))); [|destruct (Z.ltb_spec i (- m)); [|destruct (Z.ltb_spec i 0); [|destruct (Z.ltb_spec i n)]]];
    repeat match goal with |- context [Z.ltb ?a ?b] => destruct (Z.ltb_spec a b); try lia end.
Qed.

Lemma r_inj a b : r a = r b -> a = b.
Proof. intros H. rewrite <- (unrenum_r a), <- (unrenum_r b), H. auto. Qed.

Lemma r_thr i : (r i <? p + n + q) = (i <? n).
Proof.
  unfold renum. destruct (Z.ltb_spec i (- (n + m))); [|destruct (Z.ltb_spec i (- m)); [|destruct (Z.ltb_spec i 0); [|destruct (Z.ltb_spec i n)]]]; zb; auto.
Qed.

Lemma get_front i : 0 <= i < n -> py_get V' (i + p) = py_get V i.
Proof.
  intros H. rewrite !get_pos by lia. rewrite <- !app_assoc. f_equal. rewrite (@nth_error_app2 _ pre) by lia. replace (Z.to_nat (i + p) - length pre)%nat with (Z.to_nat i) by lia.
  rewrite !nth_error_app1 by lia. auto.
Qed.

Lemma get_back i : n <= i -> py_get V' (i + p + q) = py_get V i.
Proof.
  intros H. rewrite !get_pos by lia. rewrite <- !app_assoc. f_equal. rewrite (@nth_error_app2 _ pre), !(@nth_error_app2 _ verts), (@nth_error_app2 _ post) by lia. f_equal. lia.
Qed.

Lemma r_good i : py_get V' (r i) = py_get V i.
Proof.
  assert (LV : Z.of_nat (length V) = n + m) by (rewrite app_length; lia). assert (LV' : Z.of_nat (length V') = p + n + q + m) by (rewrite !app_length; lia).
  unfold renum. destruct (Z.ltb_spec i (- (n + m))); [|destruct (Z.ltb_spec i (- m)); [|destruct (Z.ltb_spec i 0); [|destruct (Z.ltb_spec i n)]]].
  - rewrite !get_low; auto; lia.
  - rewrite (@get_neg _ V'), (@get_neg _ V) by lia. rewrite LV, LV'. rewrite <- get_front by lia. f_equal. lia.
  - rewrite (@get_neg _ V'), (@get_neg _ V) by lia. rewrite LV, LV'. rewrite <- get_back by lia. f_equal. lia.
  - apply get_front. lia.
  - apply get_back. lia.
Qed.

Lemma r_block i : 0 <= i < n -> r i = i + p.
Proof.
  intros H. unfold renum. destruct (Z.ltb_spec i (- (n + m))); [lia|]. destruct (Z.ltb_spec i (- m)); [lia|]. destruct (Z.ltb_spec i 0); [lia|]. destruct (Z.ltb_spec i n); lia.
Qed.

Lemma r_node (i : nat) : r (Z.of_nat i + n) = Z.of_nat i + (p + n + q).
Proof.
  unfold renum. destruct (Z.ltb_spec (Z.of_nat i + n) (- (n + m))); [lia|]. destruct (Z.ltb_spec (Z.of_nat i + n) (- m)); [lia|]. destruct (Z.ltb_spec (Z.of_nat i + n) 0); [lia|].
  destruct (Z.ltb_spec (Z.of_nat i + n) n); lia.
Qed.

Lemma r_range first cnt : block_in (length verts) (first, cnt) -> zrange (first + p) (first + p + cnt) = map r (zrange first (first + cnt)).
Proof.
  intros (H1 & H2 & H3). cbn [fst snd] in *. unfold zrange. rewrite map_map. replace (first + p + cnt - (first + p)) with cnt by lia. replace (first + cnt - first) with cnt by lia.
  apply map_ext_in. intros k I. apply in_seq in I. rewrite r_block by lia. lia.
Qed.
End Poly.

(** ** the contours *)
Section Prepare.
Context {A : arith}.
Variables pre verts post : list (vec3 A).
Notation n := (Z.of_nat (length verts)).
Notation p := (Z.of_nat (length pre)).
Notation V' := (pre ++ verts ++ post).
Variable r : Z -> Z.
Hypothesis r_block : forall i, 0 <= i < n -> r i = i + p.
Notation re := (renumbered r).

Lemma get_v i : 0 <= i < n -> py_get V' (i + p) = py_get verts i.
Proof. pose proof (@get_front A pre verts post []) as H. rewrite !app_nil_r in H. apply H. Qed.

Lemma sum_moved is : (forall i, In i is -> 0 <= i < n) -> forall acc, sum_verts V' acc (map (fun i => i + p) is) = sum_verts verts acc is.
Proof.
  induction is as [|i is IH]; intros H acc; cbn [map sum_verts]; auto. rewrite get_v by (apply H; simpl; auto). destruct (py_get verts i); cbn [bind]; auto. apply IH. intros; apply H; simpl; auto.
Qed.

Lemma center_moved first cnt : block_in (length verts) (first, cnt) -> poly_center V' (first + p) cnt = poly_center verts first cnt.
Proof.
  intros (H1 & H2 & H3). cbn [fst snd] in *. unfold poly_center.
  assert (E : zrange (first + p) (first + p + cnt) = map (fun i => i + p) (zrange first (first + cnt))).
  { unfold zrange. rewrite map_map. replace (first + p + cnt - (first + p)) with cnt by lia. replace (first + cnt - first) with cnt by lia. apply map_ext. intros; lia. }
  rewrite E, sum_moved; auto. intros i I. unfold zrange in I. apply in_map_iff in I as (k & <- & I). apply in_seq in I. lia.
Qed.

Lemma edge_moved id i j u c : 0 <= i < n -> 0 <= j < n -> Edge2_idx id (i + p) (j + p) u V' c = res_map re (Edge2_idx id i j u verts c).
Proof.
  intros Hi Hj. unfold Edge2_idx. rewrite !get_v by auto. destruct (py_get verts i); cbn [res_map bind]; auto. destruct (py_get verts j); cbn [res_map bind]; auto.
  cbv zeta. unfold renumbered. cbn [eid ep1 ep2 enorm ei1 ei2]. rewrite !r_block by auto. auto.
Qed.

Lemma contour_moved c us u0 id0 first cnt : block_in (length verts) (first, cnt) ->
  contour_edges V' c us u0 id0 (first + p) cnt = res_map (map re) (contour_edges verts c us u0 id0 first cnt).
Proof.
  intros (H1 & H2 & H3). cbn [fst snd] in *. unfold contour_edges. cbv zeta.
  rewrite (@mapM_in _ _ _ (fun k : nat => u <- opt_unit us (u0 + Z.of_nat k);; Edge2_idx (id0 + k) (first + Z.of_nat k) (first + Z.of_nat k + 1) u verts c) _ re).
  - destruct (mapM _ _) as [b|]; cbn [res_map bind]; auto. destruct (opt_unit us _) as [u|]; cbn [res_map bind]; auto. replace (first + p + cnt - 1) with (first + cnt - 1 + p) by lia.
    rewrite edge_moved by lia. destruct (Edge2_idx _ _ _ _ verts c); cbn [res_map bind]; auto. rewrite map_app. auto.
  - intros k I. apply in_seq in I. destruct (opt_unit us _) as [u|]; cbn [res_map bind]; auto. rewrite <- edge_moved by lia. f_equal; lia.
Qed.

Lemma holes_moved c us hs : Forall (block_in (length verts)) hs -> forall u0 id0,
  hole_edges V' c us u0 id0 (map (block_behind (length pre)) hs) = res_map (map (map re)) (hole_edges verts c us u0 id0 hs).
Proof.
  induction 1 as [|[f k] hs Hb _ IH]; intros u0 id0; cbn [map hole_edges block_behind fst snd]; auto. rewrite contour_moved by auto.
  destruct (contour_edges verts c us u0 id0 f k) as [es|]; cbn [res_map bind]; auto. rewrite map_length, IH. destruct (hole_edges verts c us _ _ hs); cbn [res_map bind]; auto.
Qed.

Lemma prepare_moved first cnt holes us : block_in (length verts) (first, cnt) -> Forall (block_in (length verts)) (match holes with Some h => h | None => [] end) ->
  prepare V' (first + p) cnt (option_map (map (block_behind (length pre))) holes) us =
  res_map (fun x => (fst x, map (map re) (snd x))) (prepare verts first cnt holes us).
Proof.
  intros Hb Hh. unfold prepare. pose proof Hb as (H1 & H2 & H3). cbn [fst snd] in *. rewrite get_v by lia. destruct (py_get verts first); cbn [res_map bind]; auto.
  rewrite center_moved by auto. destruct (poly_center verts first cnt); cbn [res_map bind]; auto. cbv zeta. rewrite contour_moved by auto.
  destruct (contour_edges verts _ _ 0 0 first cnt) as [o|]; cbn [res_map bind]; auto. rewrite map_length.
  assert (E : (match option_map (map (block_behind (length pre))) holes with Some h => h | None => [] end) = map (block_behind (length pre)) (match holes with Some h => h | None => [] end))
    by (destruct holes; auto).
  rewrite E, holes_moved by auto. destruct (hole_edges verts _ _ _ _ _); auto.
Qed.
End Prepare.

Section Final.
Context {A : arith}.
Variables pre verts post : list (vec3 A).
Notation n := (Z.of_nat (length verts)).
Notation p := (Z.of_nat (length pre)).
Notation q := (Z.of_nat (length post)).
Notation V' := (pre ++ verts ++ post).
Notation mv := (moved (length verts) (length pre) (length post)).

Lemma moved_renum m i : -1 <= i -> 0 <= m -> (i < 0 -> 1 <= m) -> renum n p q m i = mv i.
Proof.
  intros Hi Hm H1. unfold renum, moved. destruct (Z.ltb_spec i (- (n + m))); [lia|]. destruct (Z.ltb_spec i (- m)); [lia|]. destruct (Z.ltb_spec i 0); auto.
Qed.

Lemma roof_moved fuel sw sw' sch sch' debug first cnt holes hgt tan faces us :
  block_in (length verts) (first, cnt) -> Forall (block_in (length verts)) (match holes with Some h => h | None => [] end) ->
  (forall z c cs sk, prepare verts first cnt holes us = Ok (z, c, cs) -> skeletonize fuel cs = Ok sk ->
     let r := renum n p q (Z.of_nat (length sk)) in
     (forall a b, sw' (r a) (r b) = sw a b) /\ (forall k s, sch' k (map (rd r) s) = sch k s)) ->
  same_roof verts pre post
    (polygonize fuel sw sch debug verts first cnt holes hgt tan faces us)
    (polygonize fuel sw' sch' debug V' (first + p) cnt (option_map (map (block_behind (length pre))) holes) hgt tan (option_map (map (map mv)) faces) us).
Proof.
  intros Hb Hh Ho. unfold polygonize, same_roof. cbv zeta.
  assert (VA : forall l : list (vec3 A), (pre ++ verts ++ post) ++ l = pre ++ verts ++ post ++ l) by (intros; rewrite <- !app_assoc; auto).
  assert (V0 : exists nodes : list (vec3 A), verts = verts ++ nodes /\ pre ++ verts ++ post = pre ++ verts ++ post ++ nodes) by (exists []; rewrite !app_nil_r; auto).
  destruct (prepare verts first cnt holes us) as [[[z c] cs]|e] eqn:EP.
  2:{ rewrite (@prepare_moved _ pre verts post (renum n p q 0)) by (auto; intros; apply (@r_block A pre verts post []); auto). rewrite EP. cbn [res_map bind o_debug o_verts o_result o_faces]. auto. }
  cbn [bind]. destruct (skeletonize fuel cs) as [sk|e] eqn:ES.
  2:{ rewrite (@prepare_moved _ pre verts post (renum n p q 0)) by (auto; intros; apply (@r_block A pre verts post []); auto). rewrite EP. cbn [res_map bind fst snd].
      rewrite skeleton_renumbered, ES. cbn [bind o_debug o_verts o_result o_faces res_map]. auto. }
  destruct (Ho _ _ _ _ eq_refl ES) as [Hsw Hsch]. set (m := Z.of_nat (length sk)) in *.
  rewrite (@prepare_moved _ pre verts post (renum n p q m)).
  2:{ intros i Hi. unfold m. rewrite <- (map_length (skeleton_node3D c tan z) sk). apply r_block; auto. }
  2,3: auto.
  rewrite EP. cbn [res_map bind fst snd]. rewrite skeleton_renumbered, ES. cbn [bind]. destruct (slope sk hgt tan) as [ta|e]; [|cbn [o_debug o_verts o_result o_faces res_map]; auto].
  set (nodes := map (skeleton_node3D c ta z) sk). assert (Lm : m = Z.of_nat (length nodes)) by (unfold nodes; rewrite map_length; auto). rewrite Lm in Hsw, Hsch |- *.
  set (hs := match holes with Some h => h | None => [] end) in *.
  assert (E : (match option_map (map (block_behind (length pre))) holes with Some h => h | None => [] end) = map (block_behind (length pre)) hs) by (unfold hs; destruct holes; auto).
  rewrite E. clear E. rewrite <- concat_map.
  assert (EN : Z.of_nat (length (pre ++ verts ++ post)) = p + n + q) by (rewrite !app_length; lia). rewrite EN.
  assert (KF : no_stop (roof_faces sw sch (verts ++ nodes) first cnt hs (concat cs) sk n) ->
    roof_faces sw' sch' ((pre ++ verts ++ post) ++ nodes) (first + p) cnt (map (block_behind (length pre)) hs) (map (renumbered (renum n p q (Z.of_nat (length nodes)))) (concat cs)) sk (p + n + q) =
    res_map (map (map (renum n p q (Z.of_nat (length nodes))))) (roof_faces sw sch (verts ++ nodes) first cnt hs (concat cs) sk n)).
  { intros NS. apply roof_faces_r; auto.
    - apply r_inj.
    - apply r_good.
    - apply r_thr.
    - lia.
    - intros i. apply r_node.
    - apply (@r_range A pre verts post nodes). auto.
    - clear - Hh. induction Hh as [|[f k] l Hb _ IH]; cbn [map]; constructor; auto. cbn [block_behind fst snd]. apply (@r_range A pre verts post nodes). auto.
    - intros Hs. rewrite <- Lm. unfold m. destruct sk as [|a sk]; [congruence|]. cbn [length]. unfold renum. zb. }
  assert (KM : forall fs, roof_faces sw sch (verts ++ nodes) first cnt hs (concat cs) sk n = Ok fs ->
    map (map (renum n p q (Z.of_nat (length nodes)))) fs = map (map mv) fs).
  { intros fs Ef. apply map_ext_in. intros f If. apply map_ext_in. intros i Ii. pose proof Hb as (B1 & B2 & B3). cbn [fst snd] in *. rewrite Forall_forall in Hh.
    assert (HR : Forall2 (fun b es => ring_of verts c (fst b) (snd b) es) ((first, cnt) :: hs) cs).
    { apply prepare_rings in EP; auto; try lia. intros h Ih. apply (Hh h Ih). }
    pose proof (@roof_faces_vertices A sw sch (verts ++ nodes) first cnt hs (concat cs) sk n fs (fun e Ie => proj1 (rings_index _ HR Ie)) Ef f i If Ii) as [K|[K|K]].
    - assert (0 <= i < n) by (destruct K as [K|(h & Ih & K)]; [unfold in_block in K; lia|]; destruct (Hh h Ih) as (? & ? & ?); unfold in_block in K; lia).
      apply moved_renum; lia.
    - unfold node_index in K. apply moved_renum; lia.
    - destruct K as (-> & a & x & Ia & _). apply moved_renum; try lia. intros _. rewrite <- Lm. unfold m. destruct sk; [destruct Ia|cbn [length]; lia]. }
  split; [|split].
  - destruct (roof_faces sw' _ _ _ _ _ _ _ _), (roof_faces sw _ _ _ _ _ _ _ _), faces; auto.
  - exists nodes. rewrite <- VA. destruct (roof_faces sw' _ _ _ _ _ _ _ _), (roof_faces sw _ _ _ _ _ _ _ _), faces; auto.
  - destruct (roof_faces sw sch (verts ++ nodes) first cnt hs (concat cs) sk n) as [fs|e] eqn:EF.
    + intros _. rewrite KF by discriminate. cbn [res_map]. rewrite KM by auto. destruct faces as [old|]; cbn [option_map o_result o_faces res_map]; auto. rewrite map_app. auto.
    + intros NS. rewrite KF by (intros K; apply NS; cbn [o_result]; auto). cbn [res_map o_result o_faces]. auto.
Qed.

(** every order in which the sets of the larger call are walked is one of the smaller call, and conversely *)
Theorem moved_down fuel sw' sch' debug first cnt holes hgt tan faces us :
  block_in (length verts) (first, cnt) -> Forall (block_in (length verts)) (match holes with Some h => h | None => [] end) ->
  exists sw sch, same_roof verts pre post
    (polygonize fuel sw sch debug verts first cnt holes hgt tan faces us)
    (polygonize fuel sw' sch' debug V' (first + p) cnt (option_map (map (block_behind (length pre))) holes) hgt tan (option_map (map (map mv)) faces) us).
Proof.
  intros Hb Hh.
  set (m := match prepare verts first cnt holes us with Ok x => match skeletonize fuel (snd x) with Ok sk => Z.of_nat (length sk) | _ => 0 end | _ => 0 end).
  exists (fun a b => sw' (renum n p q m a) (renum n p q m b)), (fun k s => sch' k (map (rd (renum n p q m)) s)). apply roof_moved; auto.
  intros z c cs sk EP ES. cbv zeta. assert (m = Z.of_nat (length sk)) as <- by (unfold m; rewrite EP; cbn [snd]; rewrite ES; auto). auto.
Qed.

Theorem moved_up fuel sw sch debug first cnt holes hgt tan faces us :
  block_in (length verts) (first, cnt) -> Forall (block_in (length verts)) (match holes with Some h => h | None => [] end) ->
  exists sw' sch', same_roof verts pre post
    (polygonize fuel sw sch debug verts first cnt holes hgt tan faces us)
    (polygonize fuel sw' sch' debug V' (first + p) cnt (option_map (map (block_behind (length pre))) holes) hgt tan (option_map (map (map mv)) faces) us).
Proof.
  intros Hb Hh.
  set (m := match prepare verts first cnt holes us with Ok x => match skeletonize fuel (snd x) with Ok sk => Z.of_nat (length sk) | _ => 0 end | _ => 0 end).
  exists (fun a b => sw (unrenum n p q m a) (unrenum n p q m b)), (fun k s => sch k (map (rd (unrenum n p q m)) s)). apply roof_moved; auto.
  intros z c cs sk EP ES. cbv zeta. assert (m = Z.of_nat (length sk)) as <- by (unfold m; rewrite EP; cbn [snd]; rewrite ES; auto).
  assert (U : forall i, unrenum n p q m (renum n p q m i) = i).
  { assert (0 <= m) by (unfold m; destruct (prepare _ _ _ _ _) as [x|]; [destruct (skeletonize _ _)|]; lia). clearbody m. intros i. unfold renum, unrenum.
    destruct (Z.ltb_spec i (- (n + m))); [|destruct (Z.ltb_spec i (- m)); [|destruct (Z.ltb_spec i 0); [|destruct (Z.ltb_spec i n)]]]; zb. }
  split.
  - intros a b. rewrite !U. auto.
  - intros k s. rewrite map_map. f_equal. rewrite <- (map_id s) at 2. apply map_ext. intros [a b]. unfold rd. cbn [fst snd]. rewrite !U. auto.
Qed.
End Final.
