(* The Transformer, assembled: the logits, and the whole call as a function of what each node hears. *)
From Coq Require Import Reals Lra Lia List Arith Bool ZArith.
From Verif Require Import PyBase PermModel PermProofs IrrepsModel IrrepsProofs IrrepsProofs2 IrrepsStr ArrayModel ArrayProofs ArrayOps RechunkProofs ArithProofs LeadModel LeadProofs BlockProofs AxisProofs StackProofs BilinProofs ActProofs EquivProofs EquivProofs2 SumR EntryProofs ArrayProps2 ArrayProps3 TPModel TPProofs TPProofs2 StableSort TPProofs3 TPProps TPProps2 GradProofs CGModel RotationModel WignerModel WignerProofs WignerProofs2 WignerProps S2Model SHModel S2Proofs2 SHProps SHProps3 ScatterModel ScatterProps NormProofs LinearModel LinearProofs LinearProps LinearComplete LinModModel LinModProofs LinModProofs2 LinModProps ActivationModel MlpModel MlpProps ConvModel ConvProofs ConvProofs2 ConvProofs3 ConvProofs4 ConvProofs5 ConvProofs6 TransformerModel TransformerProofs TransformerProofs2.
Import ListNotations.
Open Scope nat_scope.

(* Linear with the default arguments, as in the convolution *)
Definition cv (T : attention_net) : conv := Conv [] (fun _ => []) 0 1%R 0 [] (fun t => t) NComponent Component None (t_pn T) (t_gn T) (t_conf T) [].
Lemma plain_is_default T y : plain_linear T y = default_linear (cv T) y. Proof. reflexivity. Qed.

(* ---- the logits ---- *)
Section Logit.
Variables (T : attention_net) (x kx : irreps).
Definition tq : irreps := tp_out (t_inorm T) (Some [Irrep 0 Even]) true x kx.
Definition tq_row (row key : list R) : list R := tp_row clebsch_gordan (t_inorm T) (Some [Irrep 0 Even]) true x kx row key.
Lemma tq_step fl fk : t_inorm T <> NOther -> length fl = length x -> length fk = length kx -> exists ft, length ft = length tq /\ step2k (fun a b => tensor_product clebsch_gordan (t_inorm T) (Some [Irrep 0 Even]) true a b) x fl kx fk tq ft tq_row.
Proof.
  intros Hn L Lk. apply step2k_of; [exact L|exact Lk| |].
  - intros a b Ca Cb Ia Ib Lab. assert (B : broadcast_shapes (lead a) (lead b) = Ok (lead a)) by (rewrite <- Lab; apply broadcast_refl). pose proof (tensor_product_yields clebsch_gordan (t_inorm T) (Some [Irrep 0 Even]) true a b (lead a) Ca Cb Hn B) as Y. rewrite Ia, Ib in Y. eapply yields_ext; [|exact Y].
    intros i Hi. cbv beta. rewrite <- Lab, !bidx_id by exact Hi. reflexivity.
  - intros a b c d u v K1 K2 L1 L2 I1 I2 Z W. refine (kin_flags _ _ (tp_kin _ _ _ a c b d (lead a) (lead b) u v Hn K1 K2 _ _ Z W)); [rewrite <- L1|rewrite <- L2]; apply broadcast_refl.
Qed.
Lemma tq_len row key : length (tq_row row key) = dim tq. Proof. apply tp_row_len. Qed.
Lemma tq_act D row key : rep_ok D -> intertwines clebsch_gordan D -> length row = dim x -> length key = dim kx -> act D tq (tq_row row key) = tq_row (act D x row) (act D kx key).
Proof. intros. now apply tp_row_act. Qed.
End Logit.
Definition lx (T : attention_net) (x kx : irreps) (ft : list bool) : irreps := result_irreps (default_linear (cv T) [(t_heads T, Irrep 0 Even)]) (zero_like (tq T x kx) [] ft).
Lemma lx_scalar T x kx ft : Forall (fun m => snd m = Irrep 0 Even) (lx T x kx ft).
Proof.
  unfold lx, result_irreps, target. cbn [default_linear m_force m_simplify m_out]. apply Forall_forall. intros m Hm. apply filter_In in Hm as [Hm _]. unfold simplify, remove_zero in Hm. clear -Hm.
  destruct (t_heads T) as [|n]; cbn in Hm; [contradiction|]. destruct Hm as [<-|[]]. reflexivity.
Qed.
Record logit_form (T : attention_net) (P : params) (x : irreps) (fl : list bool) (kx : irreps) (fk : list bool) (lo : irreps) (flo : list bool) (g : list R -> list R -> list R) : Prop := {
  lf_run : step2k (tf_logit T P) x fl kx fk lo flo g;
  lf_len : forall row key, length row = dim x -> length key = dim kx -> length (g row key) = dim lo;
  lf_act : forall r row key, orthogonal3 r -> length row = dim x -> length key = dim kx -> g (act (rep_of r) x row) (act (rep_of r) kx key) = g row key }.
Lemma logit_explicit T P x fl kx fk : t_inorm T <> NOther -> length fl = length x -> length fk = length kx ->
  exists ft, length ft = length (tq T x kx) /\ (forall a b t, coherent a -> coherent b -> irr a = x -> irr b = kx -> zero_flags a = fl -> zero_flags b = fk -> lead a = lead b -> tensor_product clebsch_gordan (t_inorm T) (Some [Irrep 0 Even]) true a b = Ok t -> irr t = tq T x kx /\ zero_flags t = ft) /\
  ((forall L, layer_for (default_linear (cv T) [(t_heads T, Irrep 0 Even)]) (zero_like (tq T x kx) [] ft) = Ok L -> supplies P [] L) -> exists Lr flo, layer_for (default_linear (cv T) [(t_heads T, Irrep 0 Even)]) (zero_like (tq T x kx) [] ft) = Ok Lr /\ logit_form T P x fl kx fk (lx T x kx ft) flo (fun row key => module_row (cv T) [(t_heads T, Irrep 0 Even)] (tq T x kx) ft P Lr (tq_row T x kx row key))).
Proof.
  intros Hn L Lk. destruct (tq_step T x kx fl fk Hn L Lk) as (ft & Lt & St). exists ft. split; [exact Lt|]. split.
  - intros a b t Ca Cb Ia Ib Fa Fb Lab Et. destruct (St a b Ca Cb Ia Fa Ib Fb Lab) as (t' & Et' & It & Ft & _). cbv beta in Et'. rewrite Et in Et'. injection Et' as <-. auto.
  - intros HP. destruct (module_step (cv T) [(t_heads T, Irrep 0 Even)] (tq T x kx) ft P Lt HP) as (Lr & flo & EL & Sp & Lo & Sm). exists Lr, flo. split; [exact EL|].
    assert (Ln : forall row key, length (module_row (cv T) [(t_heads T, Irrep 0 Even)] (tq T x kx) ft P Lr (tq_row T x kx row key)) = dim (lx T x kx ft)) by (intros; apply module_row_length; auto using tq_len). split.
    + intros a b Ca Cb Ia Fa Ib Fb Lab. destruct (St a b Ca Cb Ia Fa Ib Fb Lab) as (t & Et & It & Ft & Ltt & Ct & At). destruct (Sm t Ct It Ft) as (z & Ez & Iz & Fz & Lz & Cz & Az). unfold tf_logit. cbv beta in Et. rewrite Et. cbn [bind]. exists z. split; [exact Ez|]. split; [exact Iz|]. split; [exact Fz|]. split; [congruence|]. split; [exact Cz|].
      intros i Hi. rewrite Az by (rewrite Ltt; exact Hi). rewrite At by exact Hi. reflexivity.
    + auto.
    + intros r row key O Lrow Lkey. pose proof (rep_of_intertwines r O) as HI. assert (HD : rep_ok (rep_of r)) by apply as_rep_ok. rewrite <- (tq_act T x kx (rep_of r) row key HD HI Lrow Lkey).
      pose proof (module_row_eqv (cv T) [(t_heads T, Irrep 0 Even)] (tq T x kx) ft P Lr Lt EL Sp (rep_of r) HD (rep_of_scalar r O) (tq_row T x kx row key) (tq_len T x kx row key)) as A. fold (lx T x kx ft) in A.
      transitivity (act (rep_of r) (lx T x kx ft) (module_row (cv T) [(t_heads T, Irrep 0 Even)] (tq T x kx) ft P Lr (tq_row T x kx row key))); [symmetry; exact A|]. apply scalars_act; [now apply rep_of_scalar|exact HD|apply lx_scalar|apply Ln].
Qed.
Lemma logit_exists T P x fl kx fk : t_inorm T <> NOther -> length fl = length x -> length fk = length kx ->
  exists ft, length ft = length (tq T x kx) /\ (forall a b t, coherent a -> coherent b -> irr a = x -> irr b = kx -> zero_flags a = fl -> zero_flags b = fk -> lead a = lead b -> tensor_product clebsch_gordan (t_inorm T) (Some [Irrep 0 Even]) true a b = Ok t -> irr t = tq T x kx /\ zero_flags t = ft) /\
  ((forall L, layer_for (default_linear (cv T) [(t_heads T, Irrep 0 Even)]) (zero_like (tq T x kx) [] ft) = Ok L -> supplies P [] L) -> exists flo g, logit_form T P x fl kx fk (lx T x kx ft) flo g).
Proof.
  intros Hn L Lk. destruct (logit_explicit T P x fl kx fk Hn L Lk) as (ft & Lt & K & HL). exists ft. split; [exact Lt|]. split; [exact K|]. intros HP. destruct (HL HP) as (Lr & flo & _ & LF). eexists flo, _. exact LF.
Qed.
