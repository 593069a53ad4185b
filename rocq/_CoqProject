-Q theories Verif
theories/Types.v
theories/Core.v
theories/State.v
theories/Ops.v
theories/Code.v
theories/Machine.v
theories/Scenario.v
theories/Base.v
theories/Spec.v
theories/SpecApi.v
theories/SpecWait.v
theories/SpecState.v
theories/SpecSync.v
theories/Rules.v
theories/Events.v
theories/InvCtx.v
theories/InvQueue.v
theories/InvStack.v
theories/InvRefs.v
theories/InvEvents.v
theories/InvBound.v
theories/InvAff.v
theories/InvTop.v
theories/InvSleep.v
theories/Calls.v
theories/Replay.v
theories/ReplayObj.v
theories/ThmObj.v
theories/Contract.v
theories/Count.v
theories/InvRun.v
theories/ContractLib.v
theories/CallLoc.v
theories/ApiReg.v
theories/Calm.v
theories/ApiWait.v
theories/ApiIdle.v
theories/SemWait.v
theories/ApiSync.v
theories/ThmRegistry.v
theories/ThmSleep.v
theories/ThmApi.v
theories/ThmSync.v
theories/InvCv.v
theories/SpecMutex.v
theories/InvMutex.v
theories/ApiMutex.v
theories/ThmMutex.v
theories/SpecFut.v
theories/ReplayFut.v
theories/ApiFut.v
theories/ThmFut.v
theories/SpecObj.v
theories/ApiObj.v
theories/ThmCalls.v
theories/PropsThread.v
theories/SpecLaunch.v
theories/ApiLaunch.v
theories/ThmLaunch.v
theories/Own.v
theories/OwnRefs.v
theories/SpecOwn.v
theories/OwnProm.v
theories/OwnRun.v
theories/SpecKind.v
theories/InvKind.v
theories/SpecPack.v
theories/Adj.v
theories/OwnDead.v
theories/InvPack.v
theories/OwnTask.v
theories/ThmOwn.v
theories/PropsOwn.v
theories/SpecFire.v
theories/InvFire.v
theories/InvAttach.v
theories/ApiSet.v
theories/ThmFire.v
theories/PropsFire.v
theories/SpecPool.v
theories/InvJobs.v
theories/ThmPool.v
theories/InvLock.v
theories/SpecLock.v
theories/InvGuard.v
theories/PropsLock.v
theories/SpecPoolApi.v
theories/InvTab.v
theories/ApiPool.v
theories/OwnJob.v
theories/ThmJob.v
theories/InvBuild.v
theories/SpecCheck.v
theories/InvCheck.v
theories/ThmCheck.v
theories/ApiKill.v
theories/SpecWhen.v
theories/InvWhen.v
theories/InvFill.v
theories/InvHook.v
theories/InvComb.v
theories/ThmWhen.v
theories/InvBroken.v
theories/InvReady.v
theories/InvThrow.v
theories/SpecStuck.v
theories/ThmStuck.v
theories/PropsStuck.v
theories/InvArmed.v
theories/SpecLive.v
theories/InvLive.v
theories/PropsLive.v
theories/SpecWork.v
theories/InvWork.v
theories/PropsWork.v
theories/OwnWhere.v
theories/SpecWhere.v
theories/SpecWhenApi.v
theories/InvOnce.v
theories/ApiWhen.v
theories/SpecThrow.v
theories/ApiThrow.v
theories/PropsThrow.v
theories/SpecUb.v
theories/InvUb.v
theories/PropsUb.v
theories/InvTerm.v
theories/SpecTerm.v
theories/PropsTerm.v
theories/SpecRelock.v
theories/InvRelock.v
theories/PropsRelock.v
theories/SpecCause.v
theories/InvCause.v
theories/PropsCause.v
theories/SpecLost.v
theories/InvLost.v
theories/PropsLost.v
theories/SpecHandle.v
theories/InvHandle.v
theories/PropsHandle.v
theories/InvDrift.v
theories/SpecJobWait.v
theories/InvJobWait.v
theories/InvJobReady.v
theories/ThmJobWait.v
theories/PropsJobWait.v
theories/SpecTaken.v
theories/InvTaken.v
theories/PropsTaken.v
theories/SpecOrder.v
theories/ThmOrder.v
theories/PropsOrder.v
theories/SpecHolder.v
theories/InvHolder.v
theories/PropsHolder.v
theories/SpecServe.v
theories/InvServe.v
theories/PropsServe.v
theories/SpecReadySeen.v
theories/InvReadySeen.v
theories/PropsReadySeen.v
theories/Capture.v
theories/SpecCapture.v
theories/InvCapture.v
theories/PropsCapture.v
theories/SpecOvertake.v
theories/ThmOvertake.v
theories/InvLook.v
theories/PropsOvertake.v
theories/SpecStarted.v
theories/InvStarted.v
theories/PropsStarted.v
theories/InvCapOrder.v
theories/ThmUntil.v
theories/PropsUntil.v
theories/SpecRace.v
theories/InvRace.v
theories/InvRaceGet.v
theories/PropsRace.v
theories/SpecBegun.v
theories/InvBegun.v
theories/PropsBegun.v
theories/SpecTook.v
theories/InvTook.v
theories/InvTookWait.v
theories/PropsTook.v
theories/SpecRest.v
theories/InvRest.v
theories/PropsRest.v
theories/SpecRestWhen.v
theories/InvRestWhen.v
theories/PropsRestWhen.v
theories/SpecStall.v
theories/InvStall.v
theories/PropsStall.v
theories/SpecRoot.v
theories/InvRoot.v
theories/PropsRoot.v
theories/SpecHang.v
theories/InvHang.v
theories/PropsHang.v
theories/SpecHangMx.v
theories/InvHangMx.v
theories/PropsHangMx.v
theories/SpecRootAny.v
theories/InvRootAny.v
theories/InvRootProm.v
theories/PropsRootAny.v
theories/PropsRegistry.v
theories/PropsApi.v
theories/PropsSleep.v
theories/PropsCv.v
theories/PropsMutex.v
theories/PropsFuture.v
theories/PropsWhen.v
theories/PropsPool.v
