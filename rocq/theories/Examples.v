(** Concrete meshes used to show that hypotheses of theorems can be met, and
    to run the model. *)
From Verif Require Import Base Num MUtils MGeometry MCreation MAlgorithms MQuery MCelltree
  SpecTree SpecQuery SpecApi NumR NumB64 NumRoom.
From Flocq Require Import Core BinarySingleNaN.
From Coq Require Import Reals Lra.
Open Scope Z_scope.

(** some uninitialised memory *)
Definition g0 {T} {NT : Num T} : garbage T :=
  Garbage T (fun n k => Z.of_nat k - 7) (fun _ k => (Z.of_nat k, -3)) (fun _ _ => (5, 6, 7))
          (fun _ _ => Pt nfmax nfmin) (fun _ _ => Node 3 nfmax nfmin 1 1 true)
          (fun _ _ => Box nfmin nfmax nfmin nfmin) (fun _ _ => (None, None)).

(** a 3 x 2 grid of squares, the last one cut into two triangles; one square
    and one triangle are listed clockwise *)
Definition grid_pts : list (Z * Z) :=
  [(0,0);(1,0);(2,0);(3,0);(0,1);(1,1);(2,1);(3,1);(0,2);(1,2);(2,2);(3,2)].
Definition grid_faces : list (list Z) :=
  [[0;1;5;4];[1;2;6;5];[2;6;7;3];[4;5;9;8];[5;6;10;9];[6;7;11;-1];[6;10;11;-1]].
Definition ptZ {T} {NT : Num T} (p : Z * Z) : point T := Pt (nofZ (fst p)) (nofZ (snd p)).
Definition grid {T} {NT : Num T} : list (point T) := map ptZ grid_pts.

Lemma grid_faces_wf : Forall (wf_face 12) (map (with_fill (-1)) grid_faces).
Proof.
  repeat constructor; simpl; try lia.
Qed.

Lemma grid_mesh_B64 : mesh_ok (T:=b64) grid grid_faces (-1).
Proof.
  constructor.
  - repeat constructor.
  - discriminate.
  - exact grid_faces_wf.
Qed.

Lemma FMAX_big : (100 <= FMAX)%R.
Proof. unfold FMAX. apply IZR_le. apply Z.leb_le. vm_compute. reflexivity. Qed.

Lemma grid_mesh_R : mesh_ok (T:=R) grid grid_faces (-1).
Proof.
  constructor.
  - pose proof FMAX_big. repeat constructor; cbn; lra.
  - discriminate.
  - exact grid_faces_wf.
Qed.

Definition isOk {A} (r : res A) : bool := match r with Ok _ => true | Err _ => false end.

Lemma grid_built_B64 : exists t, CellTree2d_init (T:=b64) g0 grid grid_faces (-1) 4 2 = Ok t
  /\ zlen (nodes (celltree_data t)) = 7.
Proof.
  assert (H : match CellTree2d_init (T:=b64) g0 grid grid_faces (-1) 4 2 with
              | Ok t => zlen (nodes (celltree_data t)) | Err _ => -1 end = 7)
    by (vm_compute; reflexivity).
  destruct (CellTree2d_init _ _ _ _ _ _) as [t|]; [|discriminate]. eauto.
Qed.

(** a small network of pipes *)
Definition pipes : list (list Z) := [[0;1];[1;5];[5;6];[6;10];[10;3];[8;9]].

Lemma pipes_wf : Forall (wf_edge 12) pipes.
Proof. repeat constructor; simpl; try lia; try (eexists; eexists; split; [reflexivity|lia]). Qed.

Lemma grid_moderate : moderate (@grid b64 _).
Proof.
  assert (H : forallb (fun p => smallb (px p) && smallb (py p)) (@grid b64 _) = true)
    by (vm_compute; reflexivity).
  unfold moderate. rewrite forallb_forall in H. rewrite Forall_forall. intros p Hp.
  apply H in Hp. apply andb_prop in Hp as (A & B). split; now apply smallb_bounded.
Qed.

Lemma pipes_network_B64 : network_ok (T:=b64) grid pipes.
Proof.
  constructor.
  - repeat constructor.
  - discriminate.
  - exact pipes_wf.
  - intros tol. apply moderate_room. exact grid_moderate.
Qed.

Lemma pipes_network_R : network_ok (T:=R) grid pipes.
Proof.
  assert (M : moderate_R (@grid R _)).
  { pose proof FMAX_big. repeat constructor; cbn; unfold Rabs; repeat destruct Rcase_abs; lra. }
  constructor.
  - pose proof FMAX_big. repeat constructor; cbn; lra.
  - discriminate.
  - exact pipes_wf.
  - intros tol. now apply moderate_room_R.
Qed.

Lemma pipes_built_B64 : exists t, EdgeCellTree2d_init (T:=b64) g0 grid pipes 4 2 = Ok t
  /\ zlen (nodes (celltree_data t)) = 7.
Proof.
  assert (H : match EdgeCellTree2d_init (T:=b64) g0 grid pipes 4 2 with
              | Ok t => zlen (nodes (celltree_data t)) | Err _ => -1 end = 7)
    by (vm_compute; reflexivity).
  destruct (EdgeCellTree2d_init _ _ _ _ _) as [t|]; [|discriminate]. eauto.
Qed.
