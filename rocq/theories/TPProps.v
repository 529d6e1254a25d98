(* C29-C31 and the rest of C22, C32: tensor products.  Vocabulary: see ArrayProps.v ([flat x] lists the irreps of x with
   multiplicities expanded, [yields]/[agree] say what a call returns, [entry x row k u c] is component c of copy u of entry k),
   [passes flt] is membership in filter_ir_out (everything when it is None), [cg] is the table of coupling coefficients. *)
From Coq Require Import Reals Lra Permutation Sorted.
From Verif Require Import PyBase PermModel PermProofs IrrepsModel IrrepsProofs IrrepsProofs2 ArrayModel ArrayProofs ArrayOps RechunkProofs SliceProofs SliceProofs2 ArithProofs BlockProofs LeadModel LeadProofs StackProofs BilinProofs ActProofs EquivProofs EquivProofs2 SumR TPModel LinearProofs TPProofs StableSort TPProofs2 TPProofs3 LinearProps.
From Verif Require Import EntryProofs.
Open Scope nat_scope.

(* ---------- C29 ---------- *)
(* the irreps of the output, multiplicities expanded: for each irrep of x and each irrep of y those of their product that pass the filter *)
Theorem C29_irreps cg nrm flt rg x y s : coherent x -> coherent y -> nrm <> NOther -> broadcast_shapes (lead x) (lead y) = Ok s ->
  exists z, tensor_product cg nrm flt rg x y = Ok z /\ lead z = s /\
    Permutation (flat (irr z)) (flat_map (fun a => flat_map (fun b => filter (passes flt) (ir_mul a b)) (flat (irr y))) (flat (irr x))).
Proof.
  intros Hx Hy Hn E. destruct (tensor_product_yields cg nrm flt rg x y s Hx Hy Hn E) as (z & -> & E1 & E2 & _). exists z. rewrite E1. split; [reflexivity|]. split; [exact E2|]. apply tp_out_flat.
Qed.
(* regrouped: strictly increasing irreps with positive multiplicities *)
Theorem C29_regrouped cg nrm flt x y z : coherent x -> coherent y -> nrm <> NOther -> tensor_product cg nrm flt true x y = Ok z ->
  StronglySorted (fun m n => ir_ltb (snd m) (snd n) = true) (irr z) /\ Forall (fun m => 0 < fst m) (irr z).
Proof.
  intros Hx Hy Hn Ez. destruct (broadcast_shapes (lead x) (lead y)) as [s|e] eqn:E.
  - destruct (tensor_product_yields cg nrm flt true x y s Hx Hy Hn E) as (z' & Ez' & E1 & _). assert (z' = z) by congruence. subst z'. rewrite E1. split; [apply regroup_strict|apply positive_simplify].
  - unfold tensor_product in Ez. rewrite (prepare_rejects _ _ _ E) in Ez. discriminate.
Qed.
(* not regrouped: one entry per pair of entries and irrep of their product, stably sorted by irrep *)
Theorem C29_not_regrouped cg nrm flt x y s : coherent x -> coherent y -> nrm <> NOther -> broadcast_shapes (lead x) (lead y) = Ok s ->
  exists z, tensor_product cg nrm flt false x y = Ok z /\
    let entries := flat_map (fun '(m1, a) => flat_map (fun '(m2, b) => map (fun c => (m1 * m2, c)) (filter (passes flt) (ir_mul a b))) (irr y)) (irr x) in
    Permutation (irr z) entries /\ StronglySorted (fun m n => ir_ltb (snd n) (snd m) = false) (irr z) /\
    (forall c, filter (fun m => irrep_eqb (snd m) c) (irr z) = filter (fun m => irrep_eqb (snd m) c) entries).
Proof.
  intros Hx Hy Hn E. destruct (tensor_product_yields cg nrm flt false x y s Hx Hy Hn E) as (z & -> & E1 & _). exists z. split; [reflexivity|]. cbv zeta. rewrite E1. unfold tp_out. cbn [maybe_regroup]. rewrite bil_out_tp. fold (product_entries flt (irr x) (irr y)). set (o := product_entries _ _ _).
  split; [apply sort_irreps_perm|]. split.
  - pose proof (sort_irreps_StronglySorted o) as S. clear -S. induction S as [|a l S IH H]; constructor; [exact IH|]. rewrite Forall_forall in *. intros b Hb. destruct (H b Hb) as [Q|Q]; [apply ir_ltb_asym, Q|]. rewrite Q. apply ir_ltb_irrefl.
  - intros c. change (filter (fun m => irrep_eqb (snd m) c) (sort_irreps o)) with (sel_irreps (fun ir => irrep_eqb ir c) (sort_irreps o)). rewrite sel_sort_irreps. fold (sel_irreps (fun ir => irrep_eqb ir c) o).
    set (q := sel_irreps _ o). assert (Q : Forall (fun m => snd m = c) q). { apply Forall_forall. intros m Hm. apply filter_In in Hm as [_ Hm]. apply irrep_eqb_eq, Hm. } clearbody q.
    pose (row := repeat 0%R (dim q)). rewrite (sort_irreps_ssort q row). rewrite ssort_id; [apply labelled_fst|]. assert (F : Forall (fun p => snd (fst p) = c) (labelled q row)). { apply Forall_forall. intros p Hp. rewrite Forall_forall in Q. apply Q. apply (in_map fst) in Hp. rewrite labelled_fst in Hp. exact Hp. }
    induction F as [|p l Hp F IH]; constructor; [exact IH|]. rewrite Forall_forall in *. intros r Hr. unfold le_ir. rewrite Hp, (F r Hr). apply ir_ltb_irrefl.
Qed.
Theorem C29_dim cg nrm rg x y s : coherent x -> coherent y -> nrm <> NOther -> broadcast_shapes (lead x) (lead y) = Ok s ->
  exists z, tensor_product cg nrm None rg x y = Ok z /\ dim (irr z) = dim (irr x) * dim (irr y).
Proof.
  intros Hx Hy Hn E. destruct (tensor_product_yields cg nrm None rg x y s Hx Hy Hn E) as (z & -> & E1 & _). exists z. split; [reflexivity|]. rewrite E1. apply tp_out_dim.
Qed.
(* the only failure for supported normalisations: leading shapes that do not broadcast *)
Theorem C29_rejects cg nrm flt rg x y e : broadcast_shapes (lead x) (lead y) = Err e -> tensor_product cg nrm flt rg x y = Err e.
Proof. intros E. unfold tensor_product. rewrite (prepare_rejects _ _ _ E). reflexivity. Qed.
Example C29_nonvacuous : let x := IA [(2, Irrep 1 Odd)] [3; 1] (fun _ => repeat 1%R 6) None None in let y := IA [(1, Irrep 1 Odd); (1, Irrep 0 Even)] [2] (fun _ => repeat 1%R 4) None None in
  coherent x /\ coherent y /\ broadcast_shapes (lead x) (lead y) = Ok [3; 2] /\
  tp_out NComponent None true (irr x) (irr y) = [(2, Irrep 0 Even); (2, Irrep 1 Odd); (2, Irrep 1 Even); (2, Irrep 2 Even)] /\
  tp_out NComponent (Some [Irrep 1 Odd; Irrep 0 Even]) true (irr x) (irr y) = [(2, Irrep 0 Even); (2, Irrep 1 Odd)].
Proof.
  cbv zeta. split; [split; [intros i V; reflexivity|split; [apply flags_false|exact I]]|]. split; [split; [intros i V; reflexivity|split; [apply flags_false|exact I]]|]. repeat split; vm_compute; reflexivity.
Qed.

(* ---------- C30 ---------- *)
(* the documented normalisation of a path l1 x l2 -> l3 *)
Definition path_norm (nrm : inorm) (l1 l2 l3 : nat) : R :=
  match nrm with
  | NComponent => sqrt (2 * INR l3 + 1)
  | NNorm => sqrt ((2 * INR l1 + 1) * (2 * INR l2 + 1))
  | _ => 1%R
  end.
Lemma INR_ir_dim a : INR (ir_dim a) = (2 * INR (ir_l a) + 1)%R.
Proof. unfold ir_dim. rewrite plus_INR, mult_INR. cbn [INR]. ring. Qed.
Lemma norm_factor_spec nrm a b c : norm_factor nrm a b c = path_norm nrm (ir_l a) (ir_l b) (ir_l c).
Proof. destruct nrm; cbn [norm_factor path_norm]; try rewrite mult_INR; rewrite ?INR_ir_dim; reflexivity. Qed.
(* the value: with the inputs already in the order used, each output copy (u, v) of the entry (k1, k2, c) is the coupling of copy u of x and copy v of y *)
Theorem C30_value cg nrm flt x y s : coherent x -> coherent y -> nrm <> NOther -> broadcast_shapes (lead x) (lead y) = Ok s ->
  exists (labels : list (nat * nat * irrep)) (w : iarray),
    (forall k1 k2 c, In (k1, k2, c) labels <-> exists m1 a m2 b, nth_error (irr x) k1 = Some (m1, a) /\ nth_error (irr y) k2 = Some (m2, b) /\ In c (ir_mul a b) /\ passes flt c = true) /\
    NoDup labels /\ coherent w /\ lead w = s /\ length (irr w) = length labels /\
    (forall q k1 k2 c m1 a m2 b, nth_error labels q = Some (k1, k2, c) -> nth_error (irr x) k1 = Some (m1, a) -> nth_error (irr y) k2 = Some (m2, b) ->
      nth_error (irr w) q = Some (m1 * m2, c) /\
      forall u v k i, u < m1 -> v < m2 -> k < ir_dim c -> valid s i ->
        entry (irr w) (arr w i) q (u * m2 + v) k =
          (path_norm nrm (ir_l a) (ir_l b) (ir_l c) * rsum (ir_dim a) (fun e => rsum (ir_dim b) (fun f => cg (ir_l a) (ir_l b) (ir_l c) e f k * entry (irr x) (arr x (bidx (lead x) i)) k1 u e * entry (irr y) (arr y (bidx (lead y) i)) k2 v f)))%R) /\
    agree (tensor_product cg nrm flt false x y) (ia_sort w).
Proof.
  intros Hx Hy Hn E. set (ps := tp_paths nrm flt (irr x) (irr y)).
  destruct (prepare_yields x y s Hx Hy E) as (x1 & y1 & Ep & X1 & X2 & X3 & X4 & Y1 & Y2 & Y3 & Y4).
  pose proof (tp_paths_ok nrm flt (irr x) (irr y)) as Ok1. fold ps in Ok1.
  destruct (bil_core_yields cg nrm ps x1 y1 s X3 Y3 X2 Y2) as (w & Ew & W1 & W2 & W3 & W4); [rewrite X1, Y1; exact Ok1|exact Hn|].
  exists (map (fun p => (b_in1 p, b_in2 p, b_out p)) ps), w.
  assert (Shape : forall p, In p ps <-> exists k1 k2 m1 a m2 b c, nth_error (irr x) k1 = Some (m1, a) /\ nth_error (irr y) k2 = Some (m2, b) /\ In c (ir_mul a b) /\ passes flt c = true /\ p = BP k1 k2 (pairs_all m1 m2) (m1 * m2) c (norm_factor nrm a b c)).
  { intros p. unfold ps, tp_paths. rewrite in_flat_map. split.
    - intros ([k1 [m1 a]] & H1 & Hp). apply in_flat_map in Hp as ([k2 [m2 b]] & H2 & Hp). apply in_map_iff in Hp as (c & <- & Hc). apply filter_In in Hc as [Hc Hf]. apply enumerate_in in H1, H2. exists k1, k2, m1, a, m2, b, c. auto.
    - intros (k1 & k2 & m1 & a & m2 & b & c & H1 & H2 & Hc & Hf & ->). assert (En : forall (z : irreps) k m, nth_error z k = Some m -> In (k, m) (enumerate z)).
      { clear. intros z k m H. assert (L : k < length z) by (apply nth_error_Some; congruence). assert (Q : In (nth k (enumerate z) (0, m)) (enumerate z)) by (apply nth_In; unfold enumerate; rewrite combine_length, seq_length; lia). rewrite nth_enumerate in Q by exact L. cbn [snd] in Q. rewrite (nth_error_nth _ _ _ H) in Q. exact Q. }
      exists (k1, (m1, a)). split; [apply En, H1|]. apply in_flat_map. exists (k2, (m2, b)). split; [apply En, H2|]. apply in_map_iff. exists c. split; [reflexivity|]. apply filter_In. auto. }
  split; [|split; [|split; [exact W3|split; [exact W2|split; [|split]]]]].
  - intros k1 k2 c. rewrite in_map_iff. split.
    + intros (p & Q & Hp). apply Shape in Hp as (j1 & j2 & m1 & a & m2 & b & c' & H1 & H2 & Hc & Hf & ->). cbn [b_in1 b_in2 b_out] in Q. injection Q as -> -> ->. exists m1, a, m2, b. auto.
    + intros (m1 & a & m2 & b & H1 & H2 & Hc & Hf). exists (BP k1 k2 (pairs_all m1 m2) (m1 * m2) c (norm_factor nrm a b c)). split; [reflexivity|]. apply Shape. exists k1, k2, m1, a, m2, b, c. auto 6.
  - unfold ps, tp_paths. rewrite map_flat_map. assert (G : forall {A B} (key : B -> nat) (f : A -> list B) (g : A -> nat) l, NoDup (map g l) -> (forall a, In a l -> NoDup (f a)) -> (forall a b, In a l -> In b (f a) -> key b = g a) -> NoDup (flat_map f l)).
    { clear. intros A B key f g l. induction l as [|a l IH]; intros Hl Hf Hk; [constructor|]. cbn [flat_map map] in *. inversion Hl as [|? ? N Hl']; subst. assert (D : forall p q : list B, NoDup p -> NoDup q -> (forall b, In b p -> In b q -> False) -> NoDup (p ++ q)).
      { clear. induction p as [|b p IHp]; intros q Hp Hq D; [exact Hq|]. inversion Hp; subst. cbn [app]. constructor; [|apply IHp; auto; intros c Hc; apply (D c); right; exact Hc]. rewrite in_app_iff. intros [Q|Q]; [contradiction|]. apply (D b); [left; reflexivity|exact Q]. }
      apply D; [apply Hf; left; reflexivity|apply IH; auto; [intros b Hb; apply Hf; right; exact Hb|intros b c Hb Hc; apply Hk; [right; exact Hb|exact Hc]]|].
      intros b Hb Hb'. apply in_flat_map in Hb' as (a' & Ha' & Hb'). apply N. rewrite <- (Hk a b (or_introl eq_refl) Hb). rewrite (Hk a' b (or_intror Ha') Hb'). apply in_map, Ha'. }
    assert (En : forall (z : irreps), NoDup (map fst (enumerate z))) by (intros z; unfold enumerate; rewrite combine_map_fst by apply seq_length; apply seq_NoDup).
    apply (G _ _ (fun t : nat * nat * irrep => fst (fst t)) _ fst); [apply En| |].
    + intros [k1 [m1 a]] _. rewrite map_flat_map. apply (G _ _ (fun t : nat * nat * irrep => snd (fst t)) _ fst); [apply En| |].
      * intros [k2 [m2 b]] _. rewrite map_map. cbn [b_in1 b_in2 b_out]. apply FinFun.Injective_map_NoDup; [intros c c' Q; congruence|]. apply NoDup_filter, ir_mul_NoDup.
      * intros [k2 [m2 b]] t _ Ht. apply in_map_iff in Ht as (p & <- & Hp). apply in_map_iff in Hp as (c & <- & _). reflexivity.
    + intros [k1 [m1 a]] t _ Ht. apply in_map_iff in Ht as (p & <- & Hp). apply in_flat_map in Hp as ([k2 [m2 b]] & _ & Hp). apply in_map_iff in Hp as (c & <- & _). reflexivity.
  - rewrite W1. unfold bil_out. rewrite !map_length. reflexivity.
  - intros q k1 k2 c m1 a m2 b Eq H1 H2. rewrite nth_error_map in Eq. destruct (nth_error ps q) as [p|] eqn:Epq; [|discriminate]. cbn [option_map] in Eq.
    destruct (proj1 (Shape p) (nth_error_In _ _ Epq)) as (j1 & j2 & n1 & a' & n2 & b' & c' & J1 & J2 & Hc & Hf & ->). cbn [b_in1 b_in2 b_out] in Eq. injection Eq as -> -> ->.
    assert (Q1 : (n1, a') = (m1, a)) by congruence. injection Q1 as -> ->. assert (Q2 : (n2, b') = (m2, b)) by congruence. injection Q2 as -> ->.
    assert (Ei : nth_error (irr w) q = Some (m1 * m2, c)) by (rewrite W1, bil_out_nth, Epq; reflexivity). split; [exact Ei|].
    intros u v k i Hu Hv Hk Hi. rewrite W4 by exact Hi. rewrite W1. unfold bil_row. assert (Hw : u * m2 + v < m1 * m2) by nia. rewrite entry_rowof by (exists (m1 * m2), c; rewrite <- W1; auto).
    rewrite (nth_error_nth _ _ _ Epq). unfold path_val. cbn [b_in1 b_in2 b_pairs b_mul b_out b_alpha]. rewrite X1, Y1, (nth_error_nth _ _ _ H1), (nth_error_nth _ _ _ H2). cbn [snd].
    assert (Pn : nth (u * m2 + v) (pairs_all m1 m2) (0, 0) = (u, v)).
    { clear - Hu Hv. unfold pairs_all. assert (G : forall n o u, u < n -> nth (u * m2 + v) (flat_map (fun u => map (fun v => (u, v)) (seq 0 m2)) (seq o n)) (0, 0) = (o + u, v)); [|apply (G m1 0 u Hu)].
      clear u m1 Hu. induction n as [|n IH]; intros o u Hu; [lia|]. cbn [seq flat_map]. destruct u as [|u].
      - rewrite app_nth1 by (rewrite map_length, seq_length; lia). rewrite (nth_map_at _ _ _ 0) by (rewrite seq_length; lia). rewrite seq_nth by lia. f_equal; lia.
      - rewrite app_nth2 by (rewrite map_length, seq_length; lia). rewrite map_length, seq_length. replace (S u * m2 + v - m2) with (u * m2 + v) by lia. rewrite IH by lia. f_equal. lia. }
    rewrite Pn. rewrite X4, Y4 by exact Hi. rewrite <- norm_factor_spec. reflexivity.
  - assert (T : tensor_product cg nrm flt false x y = ia_sort w).
    { unfold tensor_product. rewrite Ep. cbn [bind]. rewrite X1, Y1. fold ps. rewrite Ew. cbn [bind]. destruct (ia_sort w); reflexivity. }
    rewrite T. destruct (sort_yields w W3) as (v & V). unfold agree. eexists _, _, _. split; exists v; exact V.
Qed.
(* regroup_output: regroup the inputs, multiply, regroup the output *)
Theorem C30_regroup_output cg nrm flt x y s : coherent x -> coherent y -> nrm <> NOther -> broadcast_shapes (lead x) (lead y) = Ok s ->
  agree (tensor_product cg nrm flt true x y) (let! x' := ia_regroup x in let! y' := ia_regroup y in let! z := tensor_product cg nrm flt false x' y' in ia_regroup z).
Proof.
  intros Hx Hy Hn E. eexists _, _, _. split; [apply (tensor_product_yields cg nrm flt true x y s Hx Hy Hn E)|].
  apply (yields_bind _ _ _ _ _ _ _ _ (ia_regroup_yields x Hx)). intros x' _ X1 X2 X3 X4. apply (yields_bind _ _ _ _ _ _ _ _ (ia_regroup_yields y Hy)). intros y' _ Y1 Y2 Y3 Y4.
  assert (E' : broadcast_shapes (lead x') (lead y') = Ok s) by congruence. apply (yields_bind _ _ _ _ _ _ _ _ (tensor_product_yields cg nrm flt false x' y' s X3 Y3 Hn E')). intros z _ Z1 Z2 Z3 Z4.
  assert (O : regroup_irreps (irr z) = tp_out nrm flt true (irr x) (irr y)) by (rewrite Z1; unfold tp_out; cbn [maybe_regroup]; rewrite X1, Y1; reflexivity). rewrite <- O, <- Z2. eapply yields_ext; [|apply (ia_regroup_yields z Z3)].
  intros i Hi. cbv beta. rewrite Z2 in Hi. rewrite Z4 by exact Hi. rewrite Z1. change (concat _) with (sort_row (tp_out nrm flt false (irr x') (irr y')) (tp_row cg nrm flt false (irr x') (irr y') (arr x' (bidx (lead x') i)) (arr y' (bidx (lead y') i)))).
  destruct (broadcast_valid _ _ _ _ E Hi) as [Vx Vy]. rewrite X2, Y2, X4, Y4 by assumption. unfold tp_out, tp_row. cbn [maybe_regroup maybe_sort_row]. rewrite sort_row_idem by apply bil_row_length. rewrite X1, Y1. reflexivity.
Qed.
(* equivariance: whenever the coupling coefficients intertwine the representation *)
Theorem C30_tensor_product_equivariant D cg nrm flt rg x y s : rep_ok D -> intertwines cg D -> coherent x -> coherent y -> nrm <> NOther -> broadcast_shapes (lead x) (lead y) = Ok s ->
  agree (let! z := tensor_product cg nrm flt rg x y in transform D z) (let! u := transform D x in let! v := transform D y in tensor_product cg nrm flt rg u v).
Proof.
  intros HD HI Hx Hy Hn E. apply (commute2 D (tensor_product cg nrm flt rg) x y (tp_out nrm flt rg (irr x) (irr y)) s (fun a b i => tp_row cg nrm flt rg (irr x) (irr y) (a (bidx (lead x) i)) (b (bidx (lead y) i)))); auto.
  - intros u v Hu U1 U2 _ Hv V1 V2 _. rewrite <- U1, <- V1, <- U2, <- V2. apply tensor_product_yields; auto. congruence.
  - intros a b a' b' i Hi Ea Eb. destruct (broadcast_valid _ _ _ _ E Hi) as [Vx Vy]. rewrite Ea, Eb by assumption. reflexivity.
  - intros a b i Hi La Lb. destruct (broadcast_valid _ _ _ _ E Hi) as [Vx Vy]. apply tp_row_act; auto.
Qed.
Theorem C30_elementwise_equivariant D cg nrm flt x y s : rep_ok D -> intertwines cg D -> coherent x -> coherent y -> nrm <> NOther -> broadcast_shapes (lead x) (lead y) = Ok s ->
  num_irreps (irr x) = num_irreps (irr y) -> Forall (fun m => 0 < fst m) (irr x) -> Forall (fun m => 0 < fst m) (irr y) ->
  agree (let! z := elementwise_tensor_product cg nrm flt x y in transform D z) (let! u := transform D x in let! v := transform D y in elementwise_tensor_product cg nrm flt u v).
Proof.
  intros HD HI Hx Hy Hn E N Px Py. destruct (align_total _ _ N Px Py) as (u & v & Al). destruct (align_sound _ _ _ _ Al) as (M & Fu & Fv & _).
  apply (commute2 D (elementwise_tensor_product cg nrm flt) x y (bil_out (ew_paths nrm flt u v)) s (fun a b i => bil_row cg (ew_paths nrm flt u v) u v (a (bidx (lead x) i)) (b (bidx (lead y) i)))); auto.
  - intros x' y' Hx' X1 X2 _ Hy' Y1 Y2 _. rewrite <- X2, <- Y2. apply elementwise_yields; auto; congruence.
  - intros a b a' b' i Hi Ea Eb. destruct (broadcast_valid _ _ _ _ E Hi) as [Vx Vy]. rewrite Ea, Eb by assumption. reflexivity.
  - intros a b i Hi La Lb. destruct (broadcast_valid _ _ _ _ E Hi) as [Vx Vy]. rewrite <- (act_flat D u (irr x)), <- (act_flat D v (irr y)) by assumption. apply bil_row_act; auto using ew_paths_ok.
    + rewrite dim_flat, Fu, <- dim_flat. auto.
    + rewrite dim_flat, Fv, <- dim_flat. auto.
Qed.
(* every parity-graded table of coefficients is equivariant under the inversion *)
Theorem C30_inversion cg : intertwines cg inversion_rep.
Proof.
  intros a b c i j k Hc Hi Hj Hk. assert (M : forall ir u v, u < ir_dim ir -> v < ir_dim ir -> mat_at (inversion_rep ir) u v = if (u =? v)%nat then (match ir_p ir with Even => 1 | Odd => -1 end)%R else 0%R).
  { intros ir u v Hu Hv. unfold mat_at, inversion_rep, tab2. rewrite nth_tab by exact Hu. rewrite nth_tab by exact Hv. reflexivity. }
  assert (D1 : forall n u (f : nat -> R), u < n -> rsum n (fun v => (if (u =? v)%nat then 1 else 0) * f v)%R = f u).
  { intros n u f Hu. apply rsum_delta_r, Hu. }
  set (g := cg (ir_l a) (ir_l b) (ir_l c)). set (sg := fun p => match p with Even => 1 | Odd => -1 end%R).
  transitivity (sg (ir_p c) * g i j k)%R.
  - rewrite (rsum_ext (ir_dim c) _ (fun k' => (if (k =? k')%nat then 1 else 0) * (sg (ir_p c) * g i j k'))%R); [apply (D1 (ir_dim c) k (fun k' => sg (ir_p c) * g i j k')%R Hk)|]. intros k' Hk'. rewrite M by assumption. unfold sg. destruct (k =? k')%nat; ring.
  - rewrite (rsum_ext (ir_dim a) _ (fun i' => (if (i =? i')%nat then 1 else 0) * (sg (ir_p a) * sg (ir_p b) * g i' j k))%R).
    + rewrite (D1 (ir_dim a) i (fun i' => sg (ir_p a) * sg (ir_p b) * g i' j k)%R Hi). apply ir_mul_in in Hc as [-> _]. destruct (ir_p a), (ir_p b); cbn; ring.
    + intros i' Hi'. rewrite (rsum_ext (ir_dim b) _ (fun j' => (if (j =? j')%nat then 1 else 0) * ((if (i =? i')%nat then 1 else 0) * (sg (ir_p a) * sg (ir_p b) * g i' j' k)))%R).
      * apply (D1 (ir_dim b) j (fun j' => (if (i =? i')%nat then 1 else 0) * (sg (ir_p a) * sg (ir_p b) * g i' j' k))%R Hj).
      * intros j' Hj'. rewrite !M by assumption. rewrite (Nat.eqb_sym i' i), (Nat.eqb_sym j' j). unfold sg. destruct (i =? i')%nat, (j =? j')%nat; ring.
Qed.
(* bilinearity *)
Theorem C30_bilinear_left cg nrm flt rg r x x' xr y s : coherent x -> coherent x' -> coherent xr -> coherent y -> nrm <> NOther -> broadcast_shapes (lead x) (lead y) = Ok s ->
  irr x' = irr x -> lead x' = lead x -> irr xr = irr x -> lead xr = lead x -> (forall i, valid (lead x) i -> arr xr i = zipR Rplus (map (Rmult r) (arr x i)) (arr x' i)) ->
  exists z z' zr, tensor_product cg nrm flt rg x y = Ok z /\ tensor_product cg nrm flt rg x' y = Ok z' /\ tensor_product cg nrm flt rg xr y = Ok zr /\ irr z' = irr z /\ irr zr = irr z /\
    forall i, valid s i -> arr zr i = zipR Rplus (map (Rmult r) (arr z i)) (arr z' i).
Proof.
  intros Hx Hx' Hr Hy Hn E I' L' Ir Lr A. destruct (tensor_product_yields cg nrm flt rg x y s Hx Hy Hn E) as (z & -> & Z1 & _ & _ & Z4).
  destruct (tensor_product_yields cg nrm flt rg x' y s Hx' Hy Hn) as (z' & -> & Z1' & _ & _ & Z4'); [congruence|]. destruct (tensor_product_yields cg nrm flt rg xr y s Hr Hy Hn) as (zr & -> & Zr1 & _ & _ & Zr4); [congruence|].
  exists z, z', zr. repeat (split; [congruence|]). intros i Hi. destruct (broadcast_valid _ _ _ _ E Hi) as [Vx Vy]. rewrite Z4, Z4', Zr4 by exact Hi. rewrite I', Ir, L', Lr, A by exact Vx. apply tp_row_lin_l; [apply Hx, Vx|rewrite <- I'; apply Hx'; rewrite L'; exact Vx].
Qed.
Theorem C30_bilinear_right cg nrm flt rg r x y y' yr s : coherent x -> coherent y -> coherent y' -> coherent yr -> nrm <> NOther -> broadcast_shapes (lead x) (lead y) = Ok s ->
  irr y' = irr y -> lead y' = lead y -> irr yr = irr y -> lead yr = lead y -> (forall i, valid (lead y) i -> arr yr i = zipR Rplus (map (Rmult r) (arr y i)) (arr y' i)) ->
  exists z z' zr, tensor_product cg nrm flt rg x y = Ok z /\ tensor_product cg nrm flt rg x y' = Ok z' /\ tensor_product cg nrm flt rg x yr = Ok zr /\ irr z' = irr z /\ irr zr = irr z /\
    forall i, valid s i -> arr zr i = zipR Rplus (map (Rmult r) (arr z i)) (arr z' i).
Proof.
  intros Hx Hy Hy' Hr Hn E I' L' Ir Lr A. destruct (tensor_product_yields cg nrm flt rg x y s Hx Hy Hn E) as (z & -> & Z1 & _ & _ & Z4).
  destruct (tensor_product_yields cg nrm flt rg x y' s Hx Hy' Hn) as (z' & -> & Z1' & _ & _ & Z4'); [congruence|]. destruct (tensor_product_yields cg nrm flt rg x yr s Hx Hr Hn) as (zr & -> & Zr1 & _ & _ & Zr4); [congruence|].
  exists z, z', zr. repeat (split; [congruence|]). intros i Hi. destruct (broadcast_valid _ _ _ _ E Hi) as [Vx Vy]. rewrite Z4, Z4', Zr4 by exact Hi. rewrite I', Ir, L', Lr, A by exact Vy. apply tp_row_lin_r; [apply Hy, Vy|rewrite <- I'; apply Hy'; rewrite L'; exact Vy].
Qed.
Theorem C30_elementwise_bilinear cg nrm flt r x x' xr y y' yr s u v : coherent x -> coherent x' -> coherent xr -> coherent y -> coherent y' -> coherent yr -> nrm <> NOther -> broadcast_shapes (lead x) (lead y) = Ok s -> align_two_irreps (irr x) (irr y) = Ok (u, v) ->
  irr x' = irr x -> lead x' = lead x -> irr xr = irr x -> lead xr = lead x -> (forall i, valid (lead x) i -> arr xr i = zipR Rplus (map (Rmult r) (arr x i)) (arr x' i)) ->
  irr y' = irr y -> lead y' = lead y -> irr yr = irr y -> lead yr = lead y -> (forall i, valid (lead y) i -> arr yr i = zipR Rplus (map (Rmult r) (arr y i)) (arr y' i)) ->
  let op := elementwise_tensor_product cg nrm flt in
  exists z z1 z2 z3 z4, op x y = Ok z /\ op x' y = Ok z1 /\ op xr y = Ok z2 /\ op x y' = Ok z3 /\ op x yr = Ok z4 /\
    forall i, valid s i -> arr z2 i = zipR Rplus (map (Rmult r) (arr z i)) (arr z1 i) /\ arr z4 i = zipR Rplus (map (Rmult r) (arr z i)) (arr z3 i).
Proof.
  intros Hx Hx' Hxr Hy Hy' Hyr Hn E Al I1 L1 I2 L2 A J1 K1 J2 K2 B. cbv zeta. destruct (align_sound _ _ _ _ Al) as (M & Fu & Fv & _).
  destruct (elementwise_yields cg nrm flt x y s u v Hx Hy Hn E Al) as (z & -> & _ & _ & _ & Z).
  destruct (elementwise_yields cg nrm flt x' y s u v Hx' Hy Hn) as (z1 & -> & _ & _ & _ & Z1); [congruence|congruence|].
  destruct (elementwise_yields cg nrm flt xr y s u v Hxr Hy Hn) as (z2 & -> & _ & _ & _ & Z2); [congruence|congruence|].
  destruct (elementwise_yields cg nrm flt x y' s u v Hx Hy' Hn) as (z3 & -> & _ & _ & _ & Z3); [congruence|congruence|].
  destruct (elementwise_yields cg nrm flt x yr s u v Hx Hyr Hn) as (z4 & -> & _ & _ & _ & Z4); [congruence|congruence|].
  exists z, z1, z2, z3, z4. do 5 (split; [reflexivity|]). intros i Hi. destruct (broadcast_valid _ _ _ _ E Hi) as [Vx Vy]. rewrite Z, Z1, Z2, Z3, Z4 by exact Hi. rewrite L1, L2, K1, K2, A, B by assumption.
  assert (Du : dim u = dim (irr x)) by (rewrite !dim_flat, Fu; reflexivity). assert (Dv : dim v = dim (irr y)) by (rewrite !dim_flat, Fv; reflexivity).
  split; [apply bil_row_lin_l|apply bil_row_lin_r]; try (apply ew_paths_ok, M); rewrite ?Du, ?Dv.
  - apply Hx, Vx.
  - rewrite <- I1. apply Hx'. rewrite L1. exact Vx.
  - apply Hy, Vy.
  - rewrite <- J1. apply Hy'. rewrite K1. exact Vy.
Qed.
(* filter_ir_out=l is the same as filtering the result with keep=l *)
Lemma select_filter (P : irrep -> bool) x row : concat (select (map (fun m => P (snd m)) x) (blocks x row)) = sel_row P x row.
Proof.
  unfold sel_row, unlabel, labelled. f_equal. generalize (blocks_length x row). generalize (blocks x row). intros bs L. revert bs L. induction x as [|m x IH]; intros [|b bs] L; try discriminate; [reflexivity|].
  cbn [map combine filter fst]. cbn [length] in L. specialize (IH bs ltac:(lia)). destruct (P (snd m)) eqn:Q; cbn [select map snd]; rewrite IH; reflexivity.
Qed.
Lemma ia_filter_row l z : coherent z -> yields (ia_filter z (Some (ByIrreps l)) None None) (sel_irreps (passes (Some l)) (irr z)) (lead z) (fun i => sel_row (passes (Some l)) (irr z) (arr z i)).
Proof.
  intros H. eapply yields_ext; [|apply (filter_yields z (Some (ByIrreps l)) None None); [exact H|discriminate|reflexivity|]].
  - intros i Hi. cbv beta. rewrite <- (select_filter (passes (Some l))). reflexivity.
  - intros m n _ _ Q. cbn. rewrite Q. reflexivity.
Qed.
Theorem C30_filter_before_or_after cg nrm l rg x y s : coherent x -> coherent y -> nrm <> NOther -> broadcast_shapes (lead x) (lead y) = Ok s ->
  agree (tensor_product cg nrm (Some l) rg x y) (let! z := tensor_product cg nrm None rg x y in ia_filter z (Some (ByIrreps l)) None None).
Proof.
  intros Hx Hy Hn E. eexists _, _, _. split; [apply (tensor_product_yields cg nrm (Some l) rg x y s Hx Hy Hn E)|].
  apply (yields_bind _ _ _ _ _ _ _ _ (tensor_product_yields cg nrm None rg x y s Hx Hy Hn E)). intros z _ Z1 Z2 Z3 Z4. destruct (tp_filter cg nrm l rg (irr x) (irr y) [] []) as [O _]. rewrite O, <- Z1, <- Z2.
  eapply yields_ext; [|apply ia_filter_row, Z3]. intros i Hi. cbv beta. rewrite Z2 in Hi. rewrite Z4 by exact Hi. rewrite Z1. symmetry. apply tp_filter.
Qed.
Theorem C30_elementwise_filter cg nrm l x y s u v : coherent x -> coherent y -> nrm <> NOther -> broadcast_shapes (lead x) (lead y) = Ok s -> align_two_irreps (irr x) (irr y) = Ok (u, v) ->
  agree (elementwise_tensor_product cg nrm (Some l) x y) (let! z := elementwise_tensor_product cg nrm None x y in ia_filter z (Some (ByIrreps l)) None None).
Proof.
  intros Hx Hy Hn E Al. eexists _, _, _. split; [apply (elementwise_yields cg nrm (Some l) x y s u v Hx Hy Hn E Al)|].
  apply (yields_bind _ _ _ _ _ _ _ _ (elementwise_yields cg nrm None x y s u v Hx Hy Hn E Al)). intros z _ Z1 Z2 Z3 Z4. rewrite ew_paths_filter. set (ps := ew_paths nrm None u v) in *.
  destruct (bil_filter (passes (Some l)) cg ps u v [] []) as [O _]. rewrite O, <- Z1, <- Z2. eapply yields_ext; [|apply ia_filter_row, Z3]. intros i Hi. cbv beta. rewrite Z2 in Hi. rewrite Z4 by exact Hi. rewrite Z1. symmetry. apply bil_filter.
Qed.
Example C30_nonvacuous : rep_ok inversion_rep /\ intertwines (fun _ _ _ i j k => if (i + j =? k) then 1%R else 0%R) inversion_rep /\
  align_two_irreps [(2, Irrep 1 Odd); (1, Irrep 0 Odd)] [(1, Irrep 0 Odd); (2, Irrep 2 Even)] = Ok ([(1, Irrep 1 Odd); (1, Irrep 1 Odd); (1, Irrep 0 Odd)], [(1, Irrep 0 Odd); (1, Irrep 2 Even); (1, Irrep 2 Even)]).
Proof. split; [intros ir; apply tab2_wf|]. split; [apply C30_inversion|reflexivity]. Qed.

(* ---------- C31 ---------- *)
Theorem C31_dimension cg nrm normalized rg x : coherent x -> nrm <> NOther ->
  exists z, tensor_square cg nrm normalized rg x = Ok z /\ lead z = lead x /\ 2 * dim (irr z) = dim (irr x) * (dim (irr x) + 1).
Proof.
  intros Hx Hn. destruct (tensor_square_yields cg nrm normalized rg x Hx Hn) as (z & -> & E1 & E2 & _). exists z. split; [reflexivity|]. split; [exact E2|]. rewrite E1. unfold ts_out. rewrite maybe_regroup_dim, (dim_perm _ _ (sort_irreps_perm _)), ts_out_dim, maybe_regroup_dim. reflexivity.
Qed.
(* the entries, in the order before sorting: pairs of different entries, pairs of different copies, and the even degrees of a copy with itself *)
Theorem C31_irreps cg nrm normalized x : coherent x -> nrm <> NOther ->
  exists z, tensor_square cg nrm normalized false x = Ok z /\
    Permutation (irr z) (flat_map (fun '(k1, (m1, a)) => flat_map (fun '(k2, (m2, b)) => flat_map (fun c =>
      if (k1 <? k2) then [(m1 * m2, c)]
      else if (k1 =? k2) then (if (1 <? m1) then [(m1 * (m1 - 1) / 2, c)] else []) ++ (if Nat.even (ir_l c) then [(m1, c)] else [])
      else []) (ir_mul a b)) (enumerate (irr x))) (enumerate (irr x))) /\
    StronglySorted (fun m n => ir_ltb (snd n) (snd m) = false) (irr z).
Proof.
  intros Hx Hn. destruct (tensor_square_yields cg nrm normalized false x Hx Hn) as (z & -> & E1 & _). exists z. split; [reflexivity|]. rewrite E1. unfold ts_out. cbn [maybe_regroup]. split.
  - rewrite sort_irreps_perm. unfold bil_out, ts_paths. rewrite map_flat_map. erewrite flat_map_ext; [reflexivity|]. intros [k1 [m1 a]]. cbv beta. rewrite map_flat_map. apply flat_map_ext. intros [k2 [m2 b]]. rewrite map_flat_map. apply flat_map_ext. intros c. cbv zeta.
    destruct (k1 <? k2); [reflexivity|]. destruct (k1 =? k2); [|reflexivity]. destruct (1 <? m1), (Nat.even (ir_l c)); reflexivity.
  - set (o := bil_out _). pose proof (sort_irreps_StronglySorted o) as S. clear -S. induction S as [|a l S IH H]; constructor; [exact IH|]. rewrite Forall_forall in *. intros b Hb. destruct (H b Hb) as [Q|Q]; [apply ir_ltb_asym, Q|]. rewrite Q. apply ir_ltb_irrefl.
Qed.
Theorem C31_regrouped cg nrm normalized x z : coherent x -> nrm <> NOther -> tensor_square cg nrm normalized true x = Ok z ->
  StronglySorted (fun m n => ir_ltb (snd m) (snd n) = true) (irr z) /\ Forall (fun m => 0 < fst m) (irr z).
Proof.
  intros Hx Hn Ez. destruct (tensor_square_yields cg nrm normalized true x Hx Hn) as (z' & Ez' & E1 & _). assert (z' = z) by congruence. subst z'. rewrite E1. split; [apply regroup_strict|apply positive_simplify].
Qed.
Theorem C31_equivariant D cg nrm normalized rg x : rep_ok D -> intertwines cg D -> coherent x -> nrm <> NOther ->
  agree (let! z := tensor_square cg nrm normalized rg x in transform D z) (let! u := transform D x in tensor_square cg nrm normalized rg u).
Proof.
  intros HD HI Hx Hn. apply (commute D (tensor_square cg nrm normalized rg) x (ts_out nrm normalized rg (irr x)) (lead x) (fun a i => ts_row cg nrm normalized rg (irr x) (a i))); auto.
  - intros y Hy E1 E2 _. rewrite <- E1, <- E2. apply tensor_square_yields; assumption.
  - intros a b i Hi E. rewrite E by exact Hi. reflexivity.
  - intros a i Hi La. apply ts_row_act; auto.
Qed.
(* what is dropped is zero: an antisymmetric coupling of a copy with itself vanishes *)
Theorem C31_dropped_is_zero (g : nat -> nat -> R) (n : nat) (v : nat -> R) : (forall i j, i < n -> j < n -> g i j = (- g j i)%R) -> rsum n (fun i => rsum n (fun j => g i j * v i * v j))%R = 0%R.
Proof.
  intros H. set (S := rsum n _). assert (S = - S)%R; [|lra]. unfold S at 1. rewrite rsum_swap. transitivity (rsum n (fun j => rsum n (fun i => - (1) * (g j i * v j * v i))))%R.
  - apply rsum_ext. intros j Hj. apply rsum_ext. intros i Hi. rewrite H by assumption. ring.
  - rewrite (rsum_ext n _ (fun j => - (1) * rsum n (fun i => g j i * v j * v i))%R) by (intros j Hj; apply rsum_scal). rewrite rsum_scal. unfold S. ring.
Qed.
Theorem C31_rejects cg normalized rg x : coherent x -> tensor_square cg NOther normalized rg x = Err AssertionError.
Proof. intros Hx. unfold tensor_square. destruct (maybe_regroup_yields rg x Hx) as (x2 & -> & _). reflexivity. Qed.
Example C31_nonvacuous : let x := [(2, Irrep 1 Odd); (1, Irrep 0 Even)] in
  ts_out NComponent false true x = [(4, Irrep 0 Even); (2, Irrep 1 Odd); (1, Irrep 1 Even); (3, Irrep 2 Even)] /\ dim x = 7 /\ dim (ts_out NComponent false true x) = 28.
Proof. repeat split; vm_compute; reflexivity. Qed.
