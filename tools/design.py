#!/usr/bin/env python3
"""Write DESIGN.md: tools/design_head.md followed by what Print Assumptions lists. Needs a built tree."""
import os, subprocess
root = os.path.dirname(os.path.dirname(os.path.abspath(__file__)))
out = subprocess.run(['python3', root + '/tools/assumptions.py'], capture_output=True, text=True, check=True).stdout
open(root + '/DESIGN.md', 'w').write(open(root + '/tools/design_head.md').read() + out)
