-Q theories Verif
theories/Model/Prog.v
theories/Model/Mem.v
theories/Model/Deps.v
theories/Model/State.v
theories/Model/Elem.v
theories/Model/Vec.v
theories/Model/Excl.v
theories/Model/Machine.v
theories/Model/Reentrant.v
theories/Model/Several.v
theories/Model/Network.v
theories/Spec.v
theories/Client.v
theories/Seq.v
theories/Lists.v
theories/ListSem.v
theories/Logic/Inv.v
theories/Logic/WP.v
theories/Logic/Post.v
theories/Logic/Specs.v
theories/Logic/Ops.v
theories/Logic/Sound.v
theories/Logic/Shape.v
theories/Logic/Clients.v
theories/Logic/Hist.v
theories/Logic/Locks.v
theories/Logic/Facts.v
theories/Logic/Visits.v
theories/Logic/Complete.v
theories/Logic/Lawful.v
theories/Logic/Lin.v
theories/Logic/Trace.v
theories/Logic/Stuck.v
theories/Fair.v
theories/Nested.v
theories/Compare.v
theories/Net.v
theories/Logic/Progress.v
theories/Logic/Live.v
theories/Logic/Cost.v
theories/Logic/Gaps.v
theories/Properties/C33.v
theories/Properties/Examples.v
theories/Properties/Growth.v
theories/Properties/Length.v
theories/Properties/Safety.v
theories/Properties/Linear.v
theories/Properties/Swap.v
theories/Properties/Progress.v
theories/Properties/Live.v
theories/Logic/Borrows.v
theories/Logic/Reentry.v
theories/Logic/Nesting.v
theories/Logic/Holding.v
theories/Logic/Inner.v
theories/Properties/Reentrant.v
theories/Properties/Inner.v
theories/Logic/Project.v
theories/Logic/Compares.v
theories/Logic/Network.v
theories/Properties/Several.v
theories/Properties/Network.v
theories/Properties/Gaps.v
theories/Properties/Exclusive.v
theories/Properties/Views.v
theories/Properties/Slices.v
theories/Logic/Single.v
theories/Logic/SingleOps.v
theories/Properties/Alone.v
theories/Logic/Solo.v
theories/Properties/Collect.v
theories/Properties/Unsafe.v
theories/Properties/Limits.v
theories/RA/Weak.v
theories/RA/WFair.v
theories/RA/WInv.v
theories/RA/WStep.v
theories/RA/WSlots.v
theories/RA/WSpecs.v
theories/RA/WOps.v
theories/RA/WSound.v
theories/RA/WLocks.v
theories/RA/WHolding.v
theories/RA/WLive.v
theories/RA/WPath.v
theories/RA/WTrace.v
theories/RA/WHist.v
theories/RA/WReentrant.v
theories/RA/WNested.v
theories/RA/WReads.v
theories/RA/WLent.v
theories/RA/WNetwork.v
theories/RA/WProject.v
theories/RA/WFlow.v
theories/RA/WStacks.v
theories/RA/WWaits.v
theories/RA/WCross.v
theories/RA/WDead.v
theories/RA/WSimul.v
theories/Properties/Weak.v
theories/Properties/WeakLinear.v
theories/Properties/WeakReentrant.v
theories/Properties/WeakNetwork.v
theories/Properties/WeakInner.v
theories/Properties/WeakCross.v
theories/Properties/WeakLive.v
theories/Properties/WeakAdequate.v
