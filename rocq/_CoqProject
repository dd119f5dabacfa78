-Q theories Verif
theories/M_ApplyPatches.v
theories/M_Build.v
theories/M_Copy.v
theories/M_CopyTree.v
theories/M_Coverage.v
theories/M_Dispatch.v
theories/M_Download.v
theories/M_Edit.v
theories/M_Env.v
theories/M_Explorer.v
theories/M_ExplorerLive.v
theories/M_ExplorerRun.v
theories/M_FuncName.v
theories/M_Functab.v
theories/M_GitGoroot.v
theories/M_GoInfo.v
theories/M_Http.v
theories/M_Instrument.v
theories/M_Interp.v
theories/M_LinePatch.v
theories/M_Link.v
theories/M_Load.v
theories/M_Module.v
theories/M_Options.v
theories/M_Overlay.v
theories/M_Patch.v
theories/M_PatchFile.v
theories/M_PathName.v
theories/M_Pattern.v
theories/M_PollRun.v
theories/M_Registry.v
theories/M_Resolve.v
theories/M_Rules.v
theories/M_Scope.v
theories/M_Serve.v
theories/M_Session.v
theories/M_Setup.v
theories/M_Shadow.v
theories/M_Slice.v
theories/M_Stack.v
theories/M_Str.v
theories/M_TestConfig.v
theories/M_Text.v
theories/M_Time.v
theories/M_Tls.v
theories/M_Tool.v
theories/M_ToolExec.v
theories/M_TraceView.v
theories/M_Unified.v
theories/M_VarType.v
theories/M_Vendor.v
theories/M_Version.v
theories/P_Dispatch.v
theories/P_Interp.v
theories/P_Interp2.v
theories/P_Interp3.v
theories/P_Patch.v
theories/P_Patch2.v
theories/P_Patch3.v
theories/P_Registry.v
theories/P_Registry2.v
theories/P_Resolve.v
theories/P_Slice.v
theories/P_Stack.v
theories/P_Stack2.v
theories/P_Stack3.v
theories/P_Str.v
theories/S_Dispatch.v
theories/S_Interp.v
theories/S_Patch.v
theories/S_Registry.v
theories/S_Stack.v
theories/S_Tls.v
theories/T_ApplyPatches.v
theories/T_ApplyPatches2.v
theories/T_Build.v
theories/T_Copy.v
theories/T_CopyTree.v
theories/T_Coverage.v
theories/T_Coverage2.v
theories/T_Dispatch.v
theories/T_Download.v
theories/T_Download2.v
theories/T_Edit.v
theories/T_Env.v
theories/T_Explorer.v
theories/T_Explorer2.v
theories/T_Explorer3.v
theories/T_ExplorerLive.v
theories/T_ExplorerLive2.v
theories/T_ExplorerLive3.v
theories/T_ExplorerRun.v
theories/T_ExplorerRun2.v
theories/T_FuncName.v
theories/T_Functab.v
theories/T_Functab2.v
theories/T_GitGoroot.v
theories/T_GitGoroot2.v
theories/T_GoInfo.v
theories/T_Http.v
theories/T_Instrument.v
theories/T_Instrument2.v
theories/T_Instrument3.v
theories/T_Instrument4.v
theories/T_Interp.v
theories/T_LinePatch.v
theories/T_LinePatch2.v
theories/T_LinePatch3.v
theories/T_Link.v
theories/T_Link2.v
theories/T_Link3.v
theories/T_Load.v
theories/T_Module.v
theories/T_Module2.v
theories/T_Options.v
theories/T_Options2.v
theories/T_Options3.v
theories/T_Overlay.v
theories/T_Patch.v
theories/T_Patch2.v
theories/T_Patch3.v
theories/T_Patch4.v
theories/T_PatchFile.v
theories/T_PathName.v
theories/T_Pattern.v
theories/T_PollRun.v
theories/T_Quote.v
theories/T_Registry.v
theories/T_Resolve.v
theories/T_Rules.v
theories/T_Scope.v
theories/T_Serve.v
theories/T_Session.v
theories/T_Setup.v
theories/T_Shadow.v
theories/T_Slice.v
theories/T_Stack.v
theories/T_Stack2.v
theories/T_TestConfig.v
theories/T_TestConfig2.v
theories/T_Text.v
theories/T_Time.v
theories/T_Tls.v
theories/T_Tool.v
theories/T_ToolExec.v
theories/T_ToolExec2.v
theories/T_TraceView.v
theories/T_TraceView2.v
theories/T_Unified.v
theories/T_VarType.v
theories/T_Vendor.v
theories/T_Version.v
theories/T_Version2.v
