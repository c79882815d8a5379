(** The boundary elements put in the container by the constructor. *)
From Verif Require Import M_Bytes M_Transport M_Exchange M_MeshIf M_Composite S_Composite L_Transport L_Exchange L_Composite L_CompEnd.
From Coq Require Import List ZArith Lia Bool.
Import ListNotations.
Local Open Scope Z_scope.

Lemma shape_ok_iff ndim g : shape_ok ndim g = true <-> ndim = 3%nat /\ (bg_shape g = 3 \/ bg_shape g = 4) \/ ndim = 2%nat /\ bg_shape g = 2.
Proof.
  unfold shape_ok. destruct ndim as [|[|[|[|n]]]]; rewrite ?orb_true_iff, ?Z.eqb_eq; split; intros H; try discriminate; try tauto; try (destruct H as [[H _]|[H _]]; discriminate).
  - destruct H as [[H _]|[_ H]]; [discriminate|auto].
  - destruct H as [[_ H]|[H _]]; [auto|discriminate].
Qed.
Lemma boundary_elements ndim composites indices :
  match geometry_composites ndim composites indices with
  | Ok l => (forall x, In x l <-> In (cg_composite x) indices /\ exists gs, zget composites (cg_composite x) = Some gs /\ In (cg_geom x) gs) /\
            (forall x, In x l -> ndim = 3%nat /\ (bg_shape (cg_geom x) = 3 \/ bg_shape (cg_geom x) = 4) \/ ndim = 2%nat /\ bg_shape (cg_geom x) = 2)
  | AssertFail => exists ix gs g, In ix indices /\ zget composites ix = Some gs /\ In g gs /\
                    ~ (ndim = 3%nat /\ (bg_shape g = 3 \/ bg_shape g = 4) \/ ndim = 2%nat /\ bg_shape g = 2)
  | UB => False
  end.
Proof.
  induction indices as [|ix r IH]; cbn [geometry_composites].
  - split; [intros x; split; [intros []|intros ([] & _)]|intros x []].
  - destruct (zget composites ix) as [geoms|] eqn:Ez.
    + destruct (forallb (shape_ok ndim) geoms) eqn:Ef.
      * rewrite forallb_forall in Ef. destruct (geometry_composites ndim composites r) as [l| |]; cbn [obind]; [|destruct IH as (i & gs & g & H & H'); exists i, gs, g; split; [right; auto|auto]|auto].
        destruct IH as [IH1 IH2]. split.
        -- intros x. rewrite in_app_iff, in_map_iff, IH1. split.
           ++ intros [(g & <- & Hg)|(H1 & H2)]; [|split; [right; auto|auto]]. cbn [cg_composite cg_geom]. split; [left; auto|eauto].
           ++ intros ([->|H1] & gs & H2 & H3); [left; exists (cg_geom x); rewrite Ez in H2; injection H2 as <-; destruct x; auto|right; eauto].
        -- intros x Hx. apply in_app_iff in Hx. destruct Hx as [Hx|Hx]; [|auto]. apply in_map_iff in Hx. destruct Hx as (g & <- & Hg). apply shape_ok_iff. cbn [cg_geom]. auto.
      * assert (exists g, In g geoms /\ shape_ok ndim g = false) as (g & Hg & Es).
        { clear -Ef. induction geoms as [|g gs IH]; [discriminate|]. cbn in Ef. apply andb_false_iff in Ef. destruct Ef as [Ef|Ef]; [exists g; split; [left|]; auto|]. destruct (IH Ef) as (g' & H1 & H2). exists g'. split; [right|]; auto. }
        exists ix, geoms, g. split; [left; auto|]. split; [auto|]. split; [auto|]. intros X. apply shape_ok_iff in X. congruence.
    + destruct (geometry_composites ndim composites r) as [l| |]; [|destruct IH as (i & gs & g & H & H'); exists i, gs, g; split; [right; auto|auto]|auto]. destruct IH as [IH1 IH2]. split; [|auto].
      intros x. rewrite IH1. split; [intros [H1 H2]; split; [right|]; auto|]. intros ([<-|H1] & gs & H2 & H3); [congruence|eauto].
Qed.
Lemma setup_contents_ok ndim groups indices c2g size composites gcs m bx has_owner :
  groups_setup groups ([], []) = Ok (indices, c2g) -> (ndim = 2%nat \/ ndim = 3%nat) ->
  (forall a, 0 <= a < size -> geometry_composites ndim (composites a) indices = Ok (gcs a)) ->
  contents_ok ndim c2g (container size (fun a => cell_geom_map m bx has_owner (gcs a))).
Proof.
  intros Hg Hn Ha. split; [auto|]. intros c x Hx. apply container_in in Hx. destruct Hx as (b & Hb & Hx & _).
  specialize (Ha b Hb). pose proof (boundary_elements ndim (composites b) indices) as HB. rewrite Ha in HB. destruct HB as [H1 H2]. split; [apply shape_ok_iff; auto|].
  apply H1 in Hx. destruct Hx as [Hi _]. pose proof (groups_setup_spec groups ([], []) (NoDup_nil _)) as H. rewrite Hg in H. cbn [fst snd app] in H. destruct H as (_ & E & G & _).
  rewrite E in Hi. unfold listed in Hi. apply in_flat_map in Hi. destruct Hi as ((lab & cs) & Hin & Hc). exists lab. apply G; [intros []|reflexivity|]. exists cs. auto.
Qed.
