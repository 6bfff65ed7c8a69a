(** What it means for a configuration of the grid to be admissible; used as a
    hypothesis by the time-stepping theorems and proved to hold of every
    configuration the set-up code accepts (SetupProofs.v). *)
From Coq Require Import ZArith List.
From Verif Require Import Types Grid.
Open Scope Z_scope.

Definition opposite (f : Face) : Face :=
  match f with XLO => XHI | XHI => XLO | YLO => YHI | YHI => YLO | ZLO => ZHI | ZHI => ZLO end.

Record wf (c : Cfg) : Prop := {
  wf_lines : forall a, 2 <= numLines c a;
  wf_pml : forall f, outerSurfaceType c f = BT_PML -> 1 <= outerSurfaceNumLayers c f;
  wf_nopml : forall f, outerSurfaceType c f <> BT_PML -> outerSurfaceNumLayers c f = 0;
  wf_types : forall f, outerSurfaceType c f = BT_PML \/ outerSurfaceType c f = BT_PEC \/
               outerSurfaceType c f = BT_PMC \/ outerSurfaceType c f = BT_PERIODIC \/
               outerSurfaceType c f = BT_MUR;
  wf_periodic : forall f, outerSurfaceType c f = BT_PERIODIC ->
                  outerSurfaceType c (opposite f) = BT_PERIODIC }.
